(** * JaxLayerFacts: what the array operations of layered circuits compute *)
From Coq Require Import List Arith Bool Lia Reals Lra ZArith.
From Verif Require Import Num Graph Spec Circuit EvalFacts Interval Dist DistFacts Rename BayesNet PropertiesInteraction JaxLayer.
Import ListNotations.
Local Set Bullet Behavior "Strict Subproofs".
Local Open Scope nat_scope.

Lemma add_at_map f i v n : forall s, add_at i v (map f (seq s n)) = map (fun r => if r =? s + i then nadd (f r) v else f r) (seq s n).
Proof.
  revert i. induction n as [|n IH]; intros i s; [destruct i; reflexivity|]. cbn [seq map]. destruct i as [|i]; cbn [add_at].
  - rewrite Nat.add_0_r, Nat.eqb_refl. f_equal. apply map_ext_in. intros r Hr. apply in_seq in Hr. destruct (Nat.eqb_spec r s); [lia|reflexivity].
  - destruct (Nat.eqb_spec s (s + S i)); [lia|]. f_equal. rewrite IH. apply map_ext. intros r. now replace (S s + i) with (s + S i) by lia.
Qed.

Lemma scatter_add_map us : forall f n, scatter_add (map f (seq 0 n)) us = map (fun r => nadd (f r) (nsum (map snd (filter (fun u => fst u =? r) us)))) (seq 0 n).
Proof.
  induction us as [|[i v] us IH]; intros f n.
  - unfold scatter_add. cbn [fold_left]. apply map_ext. intros r. cbn. now rewrite nadd_0_r.
  - unfold scatter_add in *. cbn [fold_left fst snd]. rewrite add_at_map. rewrite IH. apply map_ext. intros r. cbn [Nat.add filter fst]. rewrite Nat.eqb_sym. destruct (i =? r); [|reflexivity].
    cbn [map snd]. change (nsum (v :: ?l)) with (nadd v (nsum l)). now rewrite nadd_assoc.
Qed.

Lemma repeat_map {A} (a : A) n : repeat a n = map (fun _ => a) (seq 0 n).
Proof. generalize 0. induction n as [|n IH]; intros s; [reflexivity|]. cbn. f_equal. apply IH. Qed.

Lemma gather_nth {A} (l : list A) i d : i < length l -> gather l i = Some (nth i l d).
Proof. intros H. unfold gather. rewrite Nat.min_l by lia. now apply nth_error_nth'. Qed.

Lemma zip_with_map {A B C E} (f : B -> C -> E) (g : A -> B) (h : A -> C) l : zip_with f (map g l) (map h l) = Some (map (fun a => f (g a) (h a)) l).
Proof.
  unfold zip_with. rewrite !map_length, Nat.eqb_refl. f_equal. induction l as [|a l IH]; [reflexivity|]. cbn. now rewrite IH.
Qed.

(** ** Logarithms of quotients *)
Lemma nlog_Fin_pos x : (0 < x)%R -> nlog (Fin x) = Fin (ln x).
Proof. intros H. cbn. destruct (total_order_T x 0) as [[?|?]|?]; auto; lra. Qed.
Lemma nlog_Fin_0 : nlog (Fin 0) = NInf.
Proof. cbn. destruct (total_order_T 0 0) as [[?|?]|?]; auto; lra. Qed.

Lemma nlog_ndiv a d : nonneg a -> (0 <= d)%R -> (d = 0%R -> a = NaN \/ a = Fin 0) -> nsub (nlog a) (nlog (Fin d)) = nlog (ndiv a (Fin d)).
Proof.
  intros Ha Hd H0. destruct (Req_dec d 0) as [->|N].
  - rewrite nlog_Fin_0. destruct (H0 eq_refl) as [->| ->]; [reflexivity|]. rewrite nlog_Fin_0. cbn. destruct (Req_EM_T 0 0); [|lra]. unfold nscale_inf. destruct (total_order_T 0 0) as [[?|?]|?]; auto; lra.
  - assert (Hp : (0 < d)%R) by lra. rewrite nlog_Fin_pos by assumption. destruct a as [| |x|]; cbn [ndiv] in *.
    + reflexivity.
    + destruct Ha.
    + destruct (Req_EM_T d 0); [lra|]. destruct (Req_dec x 0) as [->|Nx].
      * replace (0 / d)%R with 0%R by (field; lra). rewrite nlog_Fin_0. reflexivity.
      * cbn in Ha. rewrite !nlog_Fin_pos; [cbn; f_equal; unfold Rdiv; rewrite ln_mult, ln_Rinv; auto; try lra; apply Rinv_0_lt_compat; lra| |lra].
        apply Rmult_lt_0_compat; [lra|now apply Rinv_0_lt_compat].
    + destruct (Rlt_dec d 0); [lra|]. reflexivity.
Qed.

(** ** Sums *)
Lemma nsum_nexp_finite l : Forall lw_ok l -> nsum (map nexp l) = Fin (Rsum (map wexp l)).
Proof. intros H. apply nsum_map_Fin. intros w Hw. apply nexp_wexp. rewrite Forall_forall in H. auto. Qed.

Lemma wexp_nonneg w : (0 <= wexp w)%R.
Proof. destruct w; cbn; try lra. left. apply exp_pos. Qed.
Lemma Rsum_wexp_nonneg l : (0 <= Rsum (map wexp l))%R.
Proof. induction l as [|w l IH]; [cbn; lra|]. cbn [map]. change (Rsum (?a :: ?b)) with (a + Rsum b)%R. pose proof (wexp_nonneg w). lra. Qed.

Lemma wexp_zero w : lw_ok w -> wexp w = 0%R -> w = NInf.
Proof. destruct w; cbn; try tauto. intros _ H. pose proof (exp_pos r). lra. Qed.

Lemma wexp_sum_zero l : Forall lw_ok l -> Rsum (map wexp l) = 0%R -> Forall (fun w => w = NInf) l.
Proof.
  induction 1 as [|w l Hw Hl IH]; intros E; [constructor|]. cbn [map] in E. change (Rsum (?a :: ?b)) with (a + Rsum b)%R in E. pose proof (wexp_nonneg w). pose proof (Rsum_wexp_nonneg l).
  constructor; [apply wexp_zero; auto; lra|apply IH; lra].
Qed.

(** A mixture with zero weights only has no finite value but zero. *)
Lemma zero_mixture {A} (w p : A -> num) l : (forall a, In a l -> w a = NInf) -> (forall a, In a l -> nonneg (p a)) -> nsum (map (fun a => nmul (nexp (w a)) (p a)) l) = NaN \/ nsum (map (fun a => nmul (nexp (w a)) (p a)) l) = Fin 0.
Proof.
  induction l as [|a l IH]; intros Hw Hp; [right; reflexivity|]. cbn [map]. change (nsum (?x :: ?y)) with (nadd x (nsum y)).
  rewrite (Hw a) by now left. assert (Ha := Hp a (or_introl eq_refl)).
  assert (X : nmul (nexp NInf) (p a) = NaN \/ nmul (nexp NInf) (p a) = Fin 0).
  { cbn [nexp]. destruct (p a); cbn in *; auto; [destruct Ha|right; f_equal; ring|left; unfold nscale_inf; destruct (total_order_T 0 0) as [[?|?]|?]; auto; lra]. }
  destruct IH as [-> | ->]; [intros; apply Hw; now right|intros; apply Hp; now right|left; destruct X as [-> | ->]; reflexivity|].
  destruct X as [-> | ->]; [left; reflexivity|right; cbn; f_equal; ring].
Qed.

Lemma nonneg_nexp_sum {A} (f g : A -> num) l : nonneg (nsum (map (fun a => nmul (nexp (f a)) (nexp (g a))) l)).
Proof. apply nonneg_sum. apply Forall_map, Forall_forall. intros a _. apply nonneg_mul; apply nexp_nonneg. Qed.

(** ** The maximum *)
Lemma nmax_ok a b : lw_ok a -> lw_ok b -> lw_ok (nmax a b).
Proof. destruct a, b; cbn; tauto. Qed.
Lemma maximum_ok l : Forall lw_ok l -> l <> [] -> exists m, maximum l = Some m /\ lw_ok m /\ (m = NInf -> Forall (fun w => w = NInf) l).
Proof.
  intros H Hne. destruct l as [|w l]; [contradiction|]. cbn [maximum]. exists (fold_left nmax l w). split; [reflexivity|].
  inversion H as [|? ? Hw Hl]; subst. clear H Hne. revert w Hw. induction Hl as [|a l Ha Hl IH]; intros w Hw; cbn [fold_left].
  - split; [exact Hw|]. intros ->. repeat constructor.
  - destruct (IH (nmax w a) (nmax_ok _ _ Hw Ha)) as [A B]. split; [exact A|]. intros E. specialize (B E). inversion B as [|? ? B1 B2]; subst.
    destruct w, a; cbn in *; try tauto; try discriminate. repeat constructor. exact B2.
Qed.

(** The normalisation constant of each row is the logarithm of the sum of its weights; for a layer with zero weights only it is
    minus infinity or not a number. *)
Definition row {A} (r : nat) (es : list (nat * nat * A)) : list (nat * nat * A) := filter (fun e => fst (fst e) =? r) es.

Lemma row_updates {A} (f : nat * nat * A -> num) r es : map snd (filter (fun u => fst u =? r) (map (fun e => (fst (fst e), f e)) es)) = map f (row r es).
Proof. unfold row. induction es as [|e es IH]; [reflexivity|]. cbn. destruct (fst (fst e) =? r); cbn; now rewrite IH. Qed.

Definition row_weight (ws : list (sparse num)) (r : nat) : R := Rsum (map (fun e => wexp (snd e)) (row r (all_entries ws))).

Lemma shifted_sum (m : R) l : Forall lw_ok l -> nsum (map (fun w => nexp (nsub w (Fin m))) l) = Fin (Rsum (map wexp l) / exp m).
Proof.
  intros H. rewrite (nsum_map_Fin _ (fun w => wexp w / exp m)%R).
  - f_equal. clear. induction l as [|w l IH]; [cbn; field; pose proof (exp_pos m); lra|]. cbn [map]. change (Rsum (?a :: ?b)) with (a + Rsum b)%R. rewrite IH. field. pose proof (exp_pos m). lra.
  - intros w Hw. rewrite Forall_forall in H. specialize (H w Hw). destruct w; cbn in *; try tauto.
    + f_equal. field. pose proof (exp_pos m). lra.
    + unfold Rdiv. now rewrite exp_plus, exp_Ropp.
Qed.

Lemma log_constants n ws : Forall lw_ok (map snd (all_entries ws)) -> all_entries ws <> [] ->
  exists z, sparse_log_constants n ws = Some (map z (seq 0 n)) /\
  forall r, z r = nlog (Fin (row_weight ws r)) \/ (z r = NaN /\ row_weight ws r = 0%R).
Proof.
  intros Hok Hne. unfold sparse_log_constants. destruct (maximum_ok _ Hok) as (m & E & Hm & Hinf); [intros X; apply map_eq_nil in X; contradiction|]. rewrite E.
  rewrite repeat_map, scatter_add_map, map_map. eexists. split; [reflexivity|]. intros r. cbv beta. rewrite nadd_0_l. rewrite (row_updates (fun e => nexp (nsub (snd e) m))).
  assert (Hr : Forall lw_ok (map snd (row r (all_entries ws)))). { apply Forall_map, Forall_forall. intros e He. apply filter_In in He. rewrite Forall_map, Forall_forall in Hok. now apply Hok. }
  assert (Hn : m = NInf -> Forall (fun w => w = NInf) (map snd (row r (all_entries ws)))). { intros X. apply Forall_map, Forall_forall. intros e He. apply filter_In in He. specialize (Hinf X). rewrite Forall_map, Forall_forall in Hinf. now apply Hinf. }
  unfold row_weight. rewrite <- (map_map snd (fun w => nexp (nsub w m))), <- (map_map snd wexp). revert Hr Hn. generalize (map snd (row r (all_entries ws))) as l. intros l Hl Hn.
  destruct m as [| |m|]; try (cbn in Hm; tauto).
  - specialize (Hn eq_refl). destruct Hn as [|w l -> Hn]; [left; cbn [map nsum fold_right Rsum]; rewrite nlog_Fin_0; reflexivity|].
    right. split; [reflexivity|]. clear -Hn. cbn [map]. change (Rsum (?a :: ?b)) with (a + Rsum b)%R. cbn [wexp]. induction Hn as [|w l -> Hn IH]; [cbn; lra|]. cbn [map]. change (Rsum (?a :: ?b)) with (a + Rsum b)%R. cbn [wexp]. lra.
  - left. rewrite shifted_sum by assumption. set (s := Rsum (map wexp l)). assert (Hs : (0 <= s)%R) by apply Rsum_wexp_nonneg. pose proof (exp_pos m). destruct (Req_dec s 0) as [E0|N].
    + rewrite E0. replace (0 / exp m)%R with 0%R by (field; lra). rewrite nlog_Fin_0. reflexivity.
    + rewrite !nlog_Fin_pos; [|lra|apply Rmult_lt_0_compat; [lra|now apply Rinv_0_lt_compat]]. cbn [nadd]. f_equal. unfold Rdiv. rewrite ln_mult, ln_Rinv, ln_exp; try lra. now apply Rinv_0_lt_compat.
Qed.

(** ** Sum layers *)
(** What a child layer adds to node [r]. *)
Definition part (r : nat) (w : sparse num) (lls : list num) : num :=
  nsum (map (fun e => nmul (nexp (snd e)) (nexp (nth (snd (fst e)) lls NaN))) (row r (s_entries w))).

Lemma updates_part w lls : (forall e, In e (s_entries w) -> snd (fst e) < length lls) ->
  sparse_updates w lls = Some (map (fun e => (fst (fst e), nmul (nexp (snd e)) (nexp (nth (snd (fst e)) lls NaN)))) (s_entries w)).
Proof.
  intros H. unfold sparse_updates. apply mapM_some. intros e He. rewrite (gather_nth _ _ NaN) by now apply H. now rewrite nexp_add.
Qed.

Lemma sparse_loop_value n ws llss : Forall2 (fun w lls => forall e, In e (s_entries w) -> snd (fst e) < length lls) ws llss -> forall f,
  sparse_loop ws (map Some llss) (map f (seq 0 n)) = Some (map (fun r => nadd (f r) (nsum (map (fun wl => part r (fst wl) (snd wl)) (combine ws llss)))) (seq 0 n)).
Proof.
  induction 1 as [|w lls ws llss Hw Hrest IH]; intros f; cbn [sparse_loop map combine].
  - f_equal. apply map_ext. intros r. cbn. now rewrite nadd_0_r.
  - rewrite updates_part by assumption. rewrite scatter_add_map, IH. f_equal. apply map_ext. intros r.
    rewrite (row_updates (fun e => nmul (nexp (snd e)) (nexp (nth (snd (fst e)) lls NaN)))). change (nsum (?x :: ?y)) with (nadd x (nsum y)). cbn [fst snd]. unfold part at 2. now rewrite nadd_assoc.
Qed.

(** The weighted sum over all child layers. *)
Definition mixture_value (ws : list (sparse num)) (llss : list (list num)) (r : nat) : num := nsum (map (fun wl => part r (fst wl) (snd wl)) (combine ws llss)).

Lemma mixture_nonneg ws llss r : nonneg (mixture_value ws llss r).
Proof. apply nonneg_sum. apply Forall_map, Forall_forall. intros wl _. apply nonneg_nexp_sum. Qed.

Lemma row_app {A} r (a b : list (nat * nat * A)) : row r (a ++ b) = row r a ++ row r b.
Proof. apply filter_app. Qed.

Lemma mixture_zero ws llss r : length llss = length ws -> Forall lw_ok (map snd (all_entries ws)) -> row_weight ws r = 0%R -> mixture_value ws llss r = NaN \/ mixture_value ws llss r = Fin 0.
Proof.
  intros L Hok H0. assert (Hn : forall e, In e (row r (all_entries ws)) -> snd e = NInf).
  { intros e He. assert (Hok' : Forall lw_ok (map snd (row r (all_entries ws)))). { apply Forall_map, Forall_forall. intros e' He'. apply filter_In in He'. rewrite Forall_map, Forall_forall in Hok. now apply Hok. }
    assert (X := wexp_sum_zero _ Hok'). rewrite map_map in X. specialize (X H0). rewrite Forall_map, Forall_forall in X. now apply X. }
  clear H0 Hok. revert llss L Hn. induction ws as [|w ws IH]; intros [|lls llss] L Hn; try discriminate; [right; reflexivity|]. unfold mixture_value. cbn [combine map]. change (nsum (?x :: ?y)) with (nadd x (nsum y)). cbn [fst snd].
  unfold all_entries in Hn. cbn [map concat] in Hn. rewrite row_app in Hn.
  destruct (IH llss) as [X|X]; [cbn in L; lia|intros e He; apply Hn, in_or_app; now right| |]; unfold mixture_value in X; rewrite X.
  - left. destruct (part r w lls); reflexivity.
  - destruct (zero_mixture (fun e : nat * nat * num => snd e) (fun e => nexp (nth (snd (fst e)) lls NaN)) (row r (s_entries w))) as [Y|Y].
    + intros e He. apply Hn, in_or_app. now left.
    + intros e _. apply nexp_nonneg.
    + left. unfold part. rewrite Y. reflexivity.
    + right. unfold part. rewrite Y. cbn. f_equal. ring.
Qed.

Lemma sparse_ll_value w0 ws' llss : let ws := w0 :: ws' in
  Forall2 (fun w lls => forall e, In e (s_entries w) -> snd (fst e) < length lls) ws llss -> all_entries ws <> [] -> Forall lw_ok (map snd (all_entries ws)) ->
  sparse_ll ws (map Some llss) = Some (map (fun r => nlog (ndiv (mixture_value ws llss r) (Fin (row_weight ws r)))) (seq 0 (s_rows w0))).
Proof.
  intros ws Hb Hne Hok. unfold sparse_ll, ws. fold ws. rewrite repeat_map, (sparse_loop_value _ ws llss Hb). destruct (log_constants (s_rows w0) ws Hok Hne) as (z & -> & Hz).
  rewrite zip_with_map. f_equal. apply map_ext. intros r. rewrite nadd_0_l. fold (mixture_value ws llss r).
  assert (L : length llss = length ws) by (symmetry; clear -Hb; induction Hb; cbn; congruence).
  destruct (Hz r) as [->|[-> E0]].
  - apply nlog_ndiv; [apply mixture_nonneg|unfold row_weight; rewrite <- (map_map snd wexp); apply Rsum_wexp_nonneg|]. intros E0. now apply mixture_zero.
  - rewrite E0. destruct (mixture_zero ws llss r L Hok E0) as [-> | ->]; [reflexivity|]. rewrite nlog_Fin_0. cbn. destruct (Req_EM_T 0 0); [|lra]. unfold nscale_inf. destruct (total_order_T 0 0) as [[?|?]|?]; auto; lra.
Qed.
