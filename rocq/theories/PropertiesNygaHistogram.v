(** * Property C89: a fitted Nyga distribution is a histogram of the data *)
From Coq Require Import List Arith Bool Lia ZArith Reals Lra Permutation Sorted.
From Verif Require Import Num Graph GraphFacts Spec SpecFacts Circuit EvalFacts VarFacts Interval Dist DistFacts Simplify ModeFacts TreeProb TreeLocal Layout LayoutFacts Star
  PropertiesQuery PropertiesProb BayesNet UniformStar Nyga NygaFacts PropertiesNyga PropertiesJptModel.
Import ListNotations.
Local Set Bullet Behavior "Strict Subproofs".
Local Open Scope R_scope.

(** ** Specification *)

(** The fraction of the data with a property. *)
Definition fraction (data : list R) (P : R -> bool) : R := frequency data P / INR (length data).

(** What the circuit answers to [cdf] and [log_likelihood] of one point, after every history. *)
Definition answers_cdf (g : graph dist) (x p : R) : Prop := forall st, exists st', cdf dist_vars dist_cdf g [x] st = Some (Fin p, st').
Definition answers_ll (g : graph dist) (x : R) (l : num) : Prop := forall st, exists st', log_likelihood dist_vars dist_ll g [x] st = Some (l, st').

(** [i] goes from [a] to [b]. *)
Definition from_to (i : sint) (a b : R) : Prop := lo i = Fin a /\ hi i = Fin b.
Definition up_to (i : sint) (b x : R) : bool := Rltb x b || (rc i && Reqb x b).

(** The circuit is over [v] and describes the histogram of the data over these intervals: every interval has the probability and the density of its share of
    the data, the cdf at its ends is the fraction of the data up to there, and nothing is possible outside. *)
Record histogram (v : nat) (data : list R) (cells : list sint) (g : graph dist) : Prop := {
  h_variables : circuit_variables dist_vars g = Some [v];
  h_probability : forall i, In i cells -> answers g (fun _ => EInt [i]) (fraction data (in_sint i));
  h_below : forall i a b, In i cells -> from_to i a b -> answers_cdf g a (fraction data (fun x => Rltb x a));
  h_up_to : forall i a b, In i cells -> from_to i a b -> answers_cdf g b (fraction data (up_to i b));
  h_density : forall i a b x, In i cells -> from_to i a b -> in_sint i x = true -> answers_ll g x (Fin (ln (fraction data (in_sint i) / (b - a))));
  h_outside : forall x, (forall i, In i cells -> in_sint i x = false) -> answers_ll g x NInf
}.

(** ** Proof *)

Lemma Rsum_cons x l : Rsum (x :: l) = x + Rsum l.
Proof. reflexivity. Qed.

Lemma Rsum_filter {A} (p : A -> bool) (f : A -> R) l : Rsum (map (fun j => if p j then f j else 0) l) = Rsum (map f (filter p l)).
Proof. induction l as [|a l IH]; [reflexivity|]. cbn [map filter]. rewrite Rsum_cons, IH. destruct (p a); cbn [map]; rewrite ?Rsum_cons; lra. Qed.

Lemma frequency_sum data P : frequency data P = Rsum (map (fun x => if P x then 1 else 0) data).
Proof.
  unfold frequency. induction data as [|x data IH]; [reflexivity|]. cbn [map filter]. rewrite Rsum_cons, <- IH. destruct (P x); [|lra]. cbn [length]. rewrite S_INR. lra.
Qed.

Lemma disjointed_In l i j : disjointed l -> In i l -> In j l -> i = j \/ forall x, ~ (in_sint i x = true /\ in_sint j x = true).
Proof.
  induction l as [|c l IH]; intros D Hi Hj; [destruct Hi|]. destruct D as [D1 D2]. destruct Hi as [<-|Hi], Hj as [<-|Hj]; auto.
  - right. intros x [A B]. apply (D1 i Hi x). auto.
Qed.

Section Histogram.
Variables (v k : nat) (data : list R) (leaves : list (R * sint)).
Hypothesis Q : quantiles data k (frequency data) leaves.
Hypothesis Hd : data <> [].

Lemma proper i : In i (map snd leaves) -> exists a b c, i = mkSint (Fin a) (Fin b) true c /\ a < b.
Proof. intros H. apply in_map_iff in H. destruct H as (wi & <- & H). exact (q_proper _ _ _ _ Q wi H). Qed.

Lemma size_pos : 0 < INR (length data).
Proof. apply lt_0_INR. destruct data; [contradiction|cbn; lia]. Qed.

Lemma all_frequency : frequency data (fun _ => true) = INR (length data).
Proof. unfold frequency. f_equal. clear. induction data as [|x l IH]; [reflexivity|]. cbn. now f_equal. Qed.

Lemma weight_fraction wi : In wi leaves -> 0 < fst wi /\ fst wi = fraction data (in_sint (snd wi)).
Proof. intros H. destruct (q_weights _ _ _ _ Q wi H) as [A B]. split; [exact A|]. rewrite B. unfold fraction. now rewrite all_frequency. Qed.

(** Two leaves are the same or one comes after the other. *)
Lemma ordered a b c a' b' c' : In (mkSint (Fin a) (Fin b) true c) (map snd leaves) -> In (mkSint (Fin a') (Fin b') true c') (map snd leaves) -> a < b -> a' < b' ->
  mkSint (Fin a) (Fin b) true c = mkSint (Fin a') (Fin b') true c' \/ b <= a' \/ b' <= a.
Proof.
  intros H1 H2 L1 L2. destruct (disjointed_In _ _ _ (q_disjoint _ _ _ _ Q) H1 H2) as [E|D]; [now left|right].
  destruct (Rle_lt_dec b a') as [X|X]; [now left|]. destruct (Rle_lt_dec b' a) as [Y|Y]; [now right|]. exfalso. apply (D (Rmax a a')).
  unfold in_sint, above, below. cbn [lo hi lc rc].
  assert (M1 : a <= Rmax a a') by apply Rmax_l. assert (M2 : a' <= Rmax a a') by apply Rmax_r. assert (M3 : Rmax a a' < b) by (apply Rmax_lub_lt; lra). assert (M4 : Rmax a a' < b') by (apply Rmax_lub_lt; lra).
  split; [destruct c|destruct c']; unfold Rleb, Rltb; repeat (destruct (Rle_dec _ _) as [|T]; [|exfalso; lra]); repeat (destruct (Rlt_dec _ _) as [|T]; [|exfalso; lra]); reflexivity.
Qed.

(** The weight of the leaves that are chosen is the fraction of the data in them. *)
Lemma chosen (sel : sint -> bool) (P : R -> bool) : (forall x i, In x data -> In i (map snd leaves) -> in_sint i x = true -> P x = sel i) ->
  Rsum (map (fun wi => fst wi * (if sel (snd wi) then 1 else 0)) leaves) = fraction data P.
Proof.
  intros H. rewrite (Rsum_ext _ (fun wi => / INR (length data) * (if sel (snd wi) then frequency data (in_sint (snd wi)) else 0))).
  2:{ intros wi Hin. rewrite (proj2 (weight_fraction wi Hin)). unfold fraction, Rdiv. destruct (sel (snd wi)); ring. }
  rewrite Rsum_scal. unfold fraction, Rdiv. rewrite Rmult_comm. f_equal. rewrite frequency_sum.
  assert (G : forall d, incl d data -> Rsum (map (fun wi => if sel (snd wi) then frequency d (in_sint (snd wi)) else 0) leaves) = Rsum (map (fun x => if P x then 1 else 0) d)).
  { induction d as [|x d IH]; intros Hs.
    - clear. unfold frequency. cbn [filter length map INR]. unfold Rsum at 2. cbn [fold_right]. induction leaves as [|wi l IH]; [reflexivity|]. cbn [map]. rewrite Rsum_cons, IH. destruct (sel (snd wi)); lra.
    - cbn [map]. rewrite Rsum_cons, <- IH by (intros y Hy; apply Hs; now right). assert (Hx : In x data) by (apply Hs; now left).
      rewrite (Rsum_ext _ (fun wi => (if in_sint (snd wi) x then if sel (snd wi) then 1 else 0 else 0) + (if sel (snd wi) then frequency d (in_sint (snd wi)) else 0))).
      2:{ intros wi _. unfold frequency. cbn [filter]. destruct (sel (snd wi)), (in_sint (snd wi) x); cbn [length]; rewrite ?S_INR; lra. }
      assert (Sp : forall (f h : R * sint -> R) l, Rsum (map (fun wi => f wi + h wi) l) = Rsum (map f l) + Rsum (map h l)).
      { intros f h l. induction l as [|a l IHl]; [unfold Rsum; cbn; lra|]. cbn [map]. rewrite !Rsum_cons, IHl. lra. }
      rewrite Sp. f_equal. rewrite (Rsum_filter (fun wi => in_sint (snd wi) x) (fun wi => if sel (snd wi) then 1 else 0)).
      pose proof (q_points _ _ _ _ Q x Hx) as L. destruct (filter _ leaves) as [|wi [|? ?]] eqn:F; try discriminate. cbn [map]. rewrite Rsum_cons. unfold Rsum. cbn [fold_right].
      assert (Hw : In wi leaves /\ in_sint (snd wi) x = true) by (apply (proj1 (filter_In (fun wi => in_sint (snd wi) x) wi leaves)); rewrite F; now left).
      rewrite (H x (snd wi)); [lra|exact Hx|apply in_map; tauto|tauto]. }
  apply G, incl_refl.
Qed.

Definition items : list (num * dist) := map (fun wi => (nlog (Fin (fst wi)), DUnif v (snd wi))) leaves.

Lemma items_valid : leaves <> [] /\ valid_over [v] (star items) /\ layered_circuit (mixture_of v leaves) (star items) /\ all_sums (Forall lw_ok) (star items).
Proof.
  assert (Hne : leaves <> []).
  { intros E. pose proof (q_total _ _ _ _ Q) as T. rewrite E in T. unfold Rsum in T. cbn in T. lra. }
  assert (Hi : items <> []) by (unfold items; intros E; apply map_eq_nil in E; auto).
  assert (W : forall wi, In wi leaves -> lw_ok (nlog (Fin (fst wi))) /\ wexp (nlog (Fin (fst wi))) = fst wi) by (intros wi Hin; apply wexp_nlog; left; now apply weight_fraction).
  destruct (star_valid v items Hi) as [V S0].
  - unfold items. rewrite map_map. apply Forall_map, Forall_forall. intros wi Hin. now apply W.
  - unfold items. rewrite !map_map. rewrite (Rsum_ext _ fst) by (intros wi Hin; now apply W). apply (q_total _ _ _ _ Q).
  - unfold items. apply Forall_map, Forall_forall. intros wi Hin. cbn [snd dvar dist_ok]. split; [reflexivity|]. destruct (proper (snd wi) (in_map _ _ _ Hin)) as (a & b & c & -> & L). exists a, b. auto.
  - split; [exact Hne|]. split; [exact V|]. split; [now apply layout_layered|]. apply star_sums. unfold items. rewrite map_map. apply Forall_map, Forall_forall. intros wi Hin. now apply W.
Qed.

Lemma item_sum (val : dist -> R) : semR val (star items) = Rsum (map (fun wi => fst wi * val (DUnif v (snd wi))) leaves).
Proof.
  rewrite star_semR. unfold items. rewrite map_map. apply Rsum_ext. intros wi Hin. cbn [fst snd]. destruct (weight_fraction wi Hin) as [P _]. now rewrite (proj2 (wexp_nlog (fst wi) ltac:(lra))).
Qed.

Lemma variables_of : circuit_variables dist_vars (mixture_of v leaves) = Some [v].
Proof.
  destruct items_valid as (_ & V & (Hwf & Hlt & r & Hr & Hg & Hu) & _). destruct (circuit_variables_spec dist_vars _ r _ Hr Hu (o_smooth _ _ V)) as (vs & Ev & Hs & Hv). rewrite Ev. f_equal.
  assert (K : forall w, In w vs <-> w = v) by (intros w; rewrite Hv, (o_variables _ _ V w); cbn; intuition). destruct vs as [|x [|y vs]].
  - destruct (proj2 (K v) eq_refl).
  - f_equal. apply K. now left.
  - exfalso. assert (x = v) by (apply K; now left). assert (y = v) by (apply K; right; now left). inversion Hs as [|? ? ? F]; subst. inversion F; subst. lia.
Qed.

Lemma probability_of A p : interval_ok A -> A <> [] -> Rsum (map (fun wi => fst wi * measure (cdfR (DUnif v (snd wi))) A) leaves) = p -> answers (mixture_of v leaves) (fun _ => EInt A) p.
Proof.
  intros HA Hne <-. destruct items_valid as (_ & V & L & Hw). assert (E := answers_semR _ _ (fun _ => EInt A) L Hw (o_leaves _ _ V)). rewrite item_sum in E. apply E.
  unfold event_ok, items. apply star_leaves. apply Forall_map, Forall_forall. intros wi _. cbn [snd evset_ok dvar]. auto.
Qed.

Lemma cdf_of x p : Rsum (map (fun wi => fst wi * cdfR (DUnif v (snd wi)) (Fin x)) leaves) = p -> answers_cdf (mixture_of v leaves) x p.
Proof.
  intros <-. destruct items_valid as (_ & V & L & Hw).
  destruct (C05_cdf_partial _ _ L (o_smooth _ _ V) Hw (o_leaves _ _ V)) with (x := fun _ : nat => x) as (p & vars & A & Ev & _ & _ & C).
  - unfold items. apply star_leaves. apply Forall_map, Forall_forall. intros wi _. exact I.
  - unfold items. apply star_leaves. apply Forall_map, Forall_forall. intros wi _. exact I.
  - rewrite variables_of in Ev. injection Ev as <-. cbn [map] in C.
    assert (B : answers (mixture_of v leaves) (below_event (fun _ => x)) (Rsum (map (fun wi => fst wi * cdfR (DUnif v (snd wi)) (Fin x)) leaves))).
    { apply (probability_of [mkSint NInf (Fin x) false true]).
      - split; [|split; [intros j []|exact I]]. constructor; [|constructor]. repeat split; try discriminate. left. exact I.
      - discriminate.
      - apply Rsum_ext. intros wi Hin. f_equal. unfold measure. cbn [map]. unfold Rsum. cbn [fold_right]. unfold delta. cbn [lo hi]. destruct (proper (snd wi) (in_map _ _ _ Hin)) as (a & b & c & -> & Lt'). cbn [cdfR lo hi]. lra. }
    intros st. destruct (C st) as (st' & Ec). exists st'. rewrite Ec. destruct (A empty_store) as (s1 & E1). destruct (B empty_store) as (s2 & E2). congruence.
Qed.

Lemma cdf_one i a b x : from_to i a b -> a < b -> b <= x -> cdfR (DUnif v i) (Fin x) = 1.
Proof. intros [E1 E2] L H. cbn [cdfR]. rewrite E1, E2. assert (1 <= (x - a) / (b - a)) by (apply Rmult_le_reg_r with (b - a); [lra|]; unfold Rdiv; rewrite Rmult_assoc, Rinv_l by lra; lra). rewrite Rmax_right by lra. apply Rmin_left. lra. Qed.
Lemma cdf_zero i a b x : from_to i a b -> a < b -> x <= a -> cdfR (DUnif v i) (Fin x) = 0.
Proof. intros [E1 E2] L H. cbn [cdfR]. rewrite E1, E2. assert ((x - a) / (b - a) <= 0) by (apply Rmult_le_reg_r with (b - a); [lra|]; unfold Rdiv; rewrite Rmult_assoc, Rinv_l by lra; lra). rewrite Rmax_left by lra. apply Rmin_right. lra. Qed.

(** The density. *)
Definition height (i : sint) (x : R) : R := if in_sint i x then match lo i, hi i with Fin a, Fin b => / (b - a) | _, _ => 0 end else 0.

Lemma ll_of x : answers_ll (mixture_of v leaves) x (nlog (Fin (Rsum (map (fun wi => fst wi * height (snd wi) x) leaves)))).
Proof.
  intros st. destruct items_valid as (_ & V & (Hwf & Hlt & r & Hr & Hg & Hu) & Hw).
  destruct (C01_likelihood_partial dist_vars dist_ll (mixture_of v leaves) Hwf Hlt) with (r := r) (t := star items) (x := fun _ : nat => x) (st := st) as (vars & Ev & _ & _ & st' & E); auto.
  - intros r' Hr'. assert (r' = r) by congruence. now subst.
  - apply (o_smooth _ _ V).
  - rewrite variables_of in Ev. injection Ev as <-. exists st'. cbn [map] in E. rewrite E. f_equal. f_equal. f_equal.
    rewrite (semN_ext _ (fun d => Fin (match d with DUnif _ i => height i x | _ => 0 end))).
    + rewrite semN_semR by exact Hw. rewrite item_sum. reflexivity.
    + unfold items. apply star_leaves. apply Forall_map, Forall_forall. intros wi Hin. cbn [snd]. unfold dist_vars. cbn [dvar]. change (sset_of [v]) with [v]. cbn [map dist_ll ll1]. unfold height.
      destruct (proper (snd wi) (in_map _ _ _ Hin)) as (a & b & c & -> & L). destruct (in_sint _ x); [|reflexivity]. cbn [lo hi]. change (nsub (Fin b) (Fin a)) with (Fin (b - a)).
      unfold nlog. destruct (total_order_T (b - a) 0) as [[T|T]|T]; try lra. cbn [nopp nexp]. now rewrite exp_Ropp, exp_ln by lra.
Qed.

Theorem C89_quantiles_histogram : histogram v data (map snd leaves) (mixture_of v leaves).
Proof.
  constructor.
  - exact variables_of.
  - intros i Hi. destruct (proper i Hi) as (a & b & c & -> & L). apply probability_of.
    + split; [|split; [intros j []|exact I]]. constructor; [|constructor]. repeat split; try discriminate. left. cbn. lra.
    + discriminate.
    + rewrite <- (chosen (fun j => in_sint j a)).
      * apply Rsum_ext. intros wi Hin. f_equal. unfold measure. cbn [map]. unfold Rsum. cbn [fold_right]. unfold delta. cbn [lo hi].
        pose proof (in_map snd _ _ Hin) as Hj. destruct (proper (snd wi) Hj) as (a' & b' & c' & E & L'). rewrite E in *.
        assert (F : from_to (mkSint (Fin a') (Fin b') true c') a' b') by (split; reflexivity).
        destruct (ordered _ _ _ _ _ _ Hi Hj L L') as [X|[X|X]].
        -- injection X as <- <- <-. rewrite (cdf_one _ a b b), (cdf_zero _ a b a) by (auto; lra). unfold in_sint, above, below. cbn [lo hi lc rc].
           unfold Rleb, Rltb. destruct (Rle_dec a a); [|lra]. destruct c; [destruct (Rle_dec a b)|destruct (Rlt_dec a b)]; cbn; lra.
        -- rewrite (cdf_zero _ a' b' b), (cdf_zero _ a' b' a) by (auto; lra). unfold in_sint, above, below. cbn [lo hi lc rc]. unfold Rleb at 1. destruct (Rle_dec a' a); [lra|]. cbn. lra.
        -- rewrite (cdf_one _ a' b' b), (cdf_one _ a' b' a) by (auto; lra). assert (in_sint (mkSint (Fin a') (Fin b') true c') a = false) as ->; [|lra].
           destruct (in_sint (mkSint (Fin a') (Fin b') true c') a) eqn:Z; [|reflexivity]. exfalso. destruct (disjointed_In _ _ _ (q_disjoint _ _ _ _ Q) Hi Hj) as [D|D]; [injection D as <- <- <-; lra|].
           apply (D a). split; [|exact Z]. unfold in_sint, above, below. cbn [lo hi lc rc]. unfold Rleb, Rltb. destruct (Rle_dec a a); [|lra]. destruct c; [destruct (Rle_dec a b)|destruct (Rlt_dec a b)]; cbn; auto; lra.
      * intros x j Hx Hj Hjx. assert (Ha : in_sint (mkSint (Fin a) (Fin b) true c) a = true) by (unfold in_sint, above, below; cbn [lo hi lc rc]; unfold Rleb, Rltb; destruct (Rle_dec a a); [|lra]; destruct c; [destruct (Rle_dec a b)|destruct (Rlt_dec a b)]; cbn; auto; lra).
        destruct (disjointed_In _ _ _ (q_disjoint _ _ _ _ Q) Hi Hj) as [<-|D]; [now rewrite Hjx, Ha|]. destruct (in_sint (mkSint (Fin a) (Fin b) true c) x) eqn:X; [exfalso; apply (D x); auto|]. destruct (in_sint j a) eqn:Y; [exfalso; apply (D a); auto|reflexivity].
  - intros i a0 b0 Hi [Fa Fb]. destruct (proper i Hi) as (a & b & c & -> & L). cbn [lo hi] in Fa, Fb. injection Fa as <-. injection Fb as <-. apply cdf_of. rewrite <- (chosen (fun j => match hi j with Fin h => Rleb h a | _ => false end)).
    + apply Rsum_ext. intros wi Hin. f_equal. pose proof (in_map snd _ _ Hin) as Hj. destruct (proper (snd wi) Hj) as (a' & b' & c' & E & L'). rewrite E in *. cbn [hi].
      assert (F : from_to (mkSint (Fin a') (Fin b') true c') a' b') by (split; reflexivity). unfold Rleb. destruct (ordered _ _ _ _ _ _ Hi Hj L L') as [X|[X|X]].
      * injection X as <- <- <-. rewrite (cdf_zero _ a b a) by (auto; lra). destruct (Rle_dec b a); lra.
      * rewrite (cdf_zero _ a' b' a) by (auto; lra). destruct (Rle_dec b' a); lra.
      * rewrite (cdf_one _ a' b' a) by (auto; lra). destruct (Rle_dec b' a); lra.
    + intros x j Hx Hj Hjx. destruct (proper j Hj) as (a' & b' & c' & -> & L'). cbn [hi]. unfold Rltb, Rleb.
      assert (Bx : a' <= x <= b' /\ (x = b' -> c' = true)).
      { revert Hjx. unfold in_sint, above, below. cbn [lo hi lc rc]. unfold Rleb, Rltb. destruct (Rle_dec a' x); [|discriminate]. destruct c'; [destruct (Rle_dec x b')|destruct (Rlt_dec x b')]; try discriminate; intros _; repeat split; auto; try lra. }
      destruct (ordered _ _ _ _ _ _ Hi Hj L L') as [X|[X|X]].
      * injection X as <- <- <-. destruct (Rlt_dec x a), (Rle_dec b a); auto; lra.
      * destruct (Rlt_dec x a), (Rle_dec b' a); auto; lra.
      * destruct (Rle_dec b' a); [|lra]. destruct (Rlt_dec x a) as [|N]; [reflexivity|]. exfalso. assert (x = a) by lra. assert (b' = a) by lra. subst.
        destruct (disjointed_In _ _ _ (q_disjoint _ _ _ _ Q) Hi Hj) as [D|D]; [injection D as <- <- <-; lra|]. apply (D a). split; [|exact Hjx].
        unfold in_sint, above, below. cbn [lo hi lc rc]. unfold Rleb, Rltb. destruct (Rle_dec a a); [|lra]. destruct c; [destruct (Rle_dec a b)|destruct (Rlt_dec a b)]; cbn; auto; lra.
  - intros i a0 b0 Hi [Fa Fb]. destruct (proper i Hi) as (a & b & c & -> & L). cbn [lo hi] in Fa, Fb. injection Fa as <-. injection Fb as <-. apply cdf_of. rewrite <- (chosen (fun j => match hi j with Fin h => Rleb h b | _ => false end)).
    + apply Rsum_ext. intros wi Hin. f_equal. pose proof (in_map snd _ _ Hin) as Hj. destruct (proper (snd wi) Hj) as (a' & b' & c' & E & L'). rewrite E in *. cbn [hi].
      assert (F : from_to (mkSint (Fin a') (Fin b') true c') a' b') by (split; reflexivity). unfold Rleb. destruct (ordered _ _ _ _ _ _ Hi Hj L L') as [X|[X|X]].
      * injection X as <- <- <-. rewrite (cdf_one _ a b b) by (auto; lra). destruct (Rle_dec b b); lra.
      * rewrite (cdf_zero _ a' b' b) by (auto; lra). destruct (Rle_dec b' b); lra.
      * rewrite (cdf_one _ a' b' b) by (auto; lra). destruct (Rle_dec b' b); lra.
    + intros x j Hx Hj Hjx. destruct (proper j Hj) as (a' & b' & c' & -> & L'). cbn [hi rc]. unfold up_to, Rltb, Rleb, Reqb. cbn [rc].
      assert (Bx : a' <= x <= b' /\ (x = b' -> c' = true)).
      { revert Hjx. unfold in_sint, above, below. cbn [lo hi lc rc]. unfold Rleb, Rltb. destruct (Rle_dec a' x); [|discriminate]. destruct c'; [destruct (Rle_dec x b')|destruct (Rlt_dec x b')]; try discriminate; intros _; repeat split; auto; try lra. }
      destruct (ordered _ _ _ _ _ _ Hi Hj L L') as [X|[X|X]].
      * injection X as <- <- <-. destruct (Rle_dec b b); [|lra]. destruct (Rlt_dec x b); [reflexivity|]. rewrite (proj2 Bx) by lra. destruct (Req_EM_T x b); [reflexivity|lra].
      * destruct (Rle_dec b' b); [lra|]. destruct (Rlt_dec x b); [lra|]. destruct c; [|reflexivity]. destruct (Req_EM_T x b); [|reflexivity]. exfalso. subst x.
        destruct (disjointed_In _ _ _ (q_disjoint _ _ _ _ Q) Hi Hj) as [D|D]; [injection D as <- <- <-; lra|]. apply (D b). split; [|exact Hjx].
        unfold in_sint, above, below. cbn [lo hi lc rc]. unfold Rleb. destruct (Rle_dec a b); [|lra]. destruct (Rle_dec b b); [reflexivity|lra].
      * destruct (Rle_dec b' b); [|lra]. destruct (Rlt_dec x b); [reflexivity|]. lra.
  - intros i a0 b0 x Hi [Fa Fb] Hx. assert (Hi' := Hi). apply in_map_iff in Hi'. destruct Hi' as (wi & Ei & Hwi).
    assert (S0 : Rsum (map (fun wi => fst wi * height (snd wi) x) leaves) = fraction data (in_sint i) / (b0 - a0)).
    { rewrite (Rsum_ext _ (fun wi => if in_sint (snd wi) x then fst wi * height i x else 0)).
      - rewrite (Rsum_filter (fun wi => in_sint (snd wi) x) (fun wi => fst wi * height i x)).
        assert (Fl : filter (fun wi => in_sint (snd wi) x) leaves = [wi]).
        { pose proof (q_disjoint _ _ _ _ Q) as D. clear - D Hwi Hx Ei. induction leaves as [|wj l IH]; [destruct Hwi|]. cbn [map disjointed filter] in *. destruct D as [D1 D2]. destruct Hwi as [->|Hwi].
          - rewrite Ei, Hx. f_equal. destruct (filter _ l) as [|wj l'] eqn:F; [reflexivity|]. exfalso. assert (Hj : In wj l /\ in_sint (snd wj) x = true) by (apply (proj1 (filter_In (fun wi => in_sint (snd wi) x) wj l)); rewrite F; now left).
            apply (D1 (snd wj) (in_map _ _ _ (proj1 Hj)) x). rewrite Ei. tauto.
          - destruct (in_sint (snd wj) x) eqn:Z; [exfalso; apply (D1 (snd wi) (in_map _ _ _ Hwi) x); rewrite Ei; auto|]. apply IH; auto. }
        rewrite Fl. cbn [map]. rewrite Rsum_cons. unfold Rsum. cbn [fold_right]. rewrite (proj2 (weight_fraction wi Hwi)), Ei. unfold height. rewrite Hx, Fa, Fb. unfold Rdiv. ring.
      - intros wj Hj. unfold height at 1. destruct (in_sint (snd wj) x) eqn:Z; [|ring]. destruct (disjointed_In _ _ _ (q_disjoint _ _ _ _ Q) Hi (in_map snd _ _ Hj)) as [<-|D]; [unfold height; now rewrite Hx|]. exfalso. apply (D x). auto. }
    assert (P : 0 < fraction data (in_sint i) / (b0 - a0)).
    { destruct (proper i Hi) as (a & b & c & E & L). rewrite E in Fa, Fb. cbn [lo hi] in Fa, Fb. injection Fa as <-. injection Fb as <-. apply Rdiv_lt_0_compat; [|lra]. rewrite <- Ei. rewrite <- (proj2 (weight_fraction wi Hwi)). now apply weight_fraction. }
    intros st. destruct (ll_of x st) as (st' & E). exists st'. rewrite E, S0. f_equal. f_equal. unfold nlog. destruct (total_order_T _ 0) as [[T|T]|T]; try lra. reflexivity.
  - intros x Hx st. destruct (ll_of x st) as (st' & E). exists st'. rewrite E. f_equal. f_equal.
    rewrite (Rsum_ext _ (fun _ => 0)). 2:{ intros wi Hin. unfold height. rewrite (Hx (snd wi) (in_map snd _ _ Hin)). ring. }
    assert (Z : Rsum (map (fun _ : R * sint => 0) leaves) = 0) by (clear; induction leaves as [|a l IH]; [reflexivity|]; cbn [map]; rewrite Rsum_cons, IH; lra). rewrite Z.
    unfold nlog. destruct (total_order_T 0 0) as [[T|T]|T]; try lra; reflexivity.
Qed.
End Histogram.
Print Assumptions C89_quantiles_histogram.

(** Fitting, for all ways to compute the likelihoods: the fitted circuit is the histogram of the data over intervals that cover exactly
    the range of the data. *)
Theorem C89_histogram whole split v k imp data : (1 <= k)%nat -> 0 <= imp -> two_values data ->
  exists cells g, histogram v data cells g /\ disjointed cells /\ (forall x, in_interval cells x = true <-> exists a b, In a data /\ In b data /\ a <= x <= b) /\
    forall fuel, (2 * length data <= fuel)%nat -> fit_with whole split v k imp fuel data None = Some g.
Proof.
  intros Hk Himp H2. destruct (C40_nyga_partial whole split v k imp data Hk Himp H2) as (leaves & Q & F). exists (map snd leaves), (mixture_of v leaves).
  split; [apply (C89_quantiles_histogram v k data leaves Q); destruct H2 as (x & y & Hx & _); intros ->; destruct Hx|].
  split; [apply (q_disjoint _ _ _ _ Q)|]. split; [apply (q_cover _ _ _ _ Q)|exact F].
Qed.
Print Assumptions C89_histogram.

Example C89_case : exists cells g, histogram 0 [3; 1; 2; 1] cells g /\ disjointed cells /\ (forall x, in_interval cells x = true <-> exists a b, In a [3; 1; 2; 1] /\ In b [3; 1; 2; 1] /\ a <= x <= b) /\
  forall fuel, (8 <= fuel)%nat -> fit 0 2 (1/10) fuel [3; 1; 2; 1] None = Some g.
Proof. apply C89_histogram; [lia|lra|exists 3, 1; cbn; repeat split; auto; lra]. Qed.
