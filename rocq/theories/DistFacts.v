(** * DistFacts: cdfs, probabilities and densities of the univariate distributions over the reals *)
From Coq Require Import List Arith Bool Lia Reals Lra ZArith.
From Verif Require Import Num Interval GaussInt Dist.
Import ListNotations.
Local Open Scope R_scope.

(** ** Well-formed distributions: proper intervals, positive scales, dictionaries with distinct keys that sum to one. *)
Definition dict_ok (p : dict) : Prop := NoDup (keys p) /\ Forall (fun q => 0 <= q) (vals p).

Definition dist_ok (d : dist) : Prop :=
  match d with
  | DUnif _ i => exists a b, lo i = Fin a /\ hi i = Fin b /\ a < b
  | DDirac _ _ cap => nonneg cap
  | DGauss _ _ sigma => 0 < sigma
  | DTGauss _ i _ sigma => 0 < sigma /\ lo i <> NaN /\ hi i <> NaN /\ nlt (lo i) (hi i)
  | DSym _ p | DInt _ p => dict_ok p /\ Rsum (vals p) = 1
  end.

(** ** Real-valued cdfs *)

(** Standardised normal cdf. *)
Definition gcdfR (mu sigma : R) (x : num) : R :=
  match x with Fin r => PhiR ((r - mu) / sigma) | y => Phi y end.

(** The exact cdf of each distribution, as a function of extended numbers. *)
Definition cdfR (d : dist) (x : num) : R :=
  match d with
  | DUnif _ i =>
      match lo i, hi i, x with
      | Fin a, Fin b, Fin r => Rmin 1 (Rmax 0 ((r - a) / (b - a)))
      | _, _, PInf => 1
      | _, _, _ => 0
      end
  | DDirac _ loc _ => match x with Fin r => if Rleb loc r then 1 else 0 | PInf => 1 | _ => 0 end
  | DGauss _ mu sigma => gcdfR mu sigma x
  | DTGauss _ i mu sigma =>
      if left_included i x
      then Rmin 1 ((gcdfR mu sigma x - gcdfR mu sigma (lo i)) / (gcdfR mu sigma (hi i) - gcdfR mu sigma (lo i)))
      else 0
  | DSym _ p | DInt _ p =>
      Rsum (map (fun kv => match x with Fin r => if Rleb (IZR (fst kv)) r then snd kv else 0
                                      | PInf => snd kv | _ => 0 end) p)
  end.

Definition is_cont (d : dist) : Prop := match d with DUnif _ _ | DGauss _ _ _ | DTGauss _ _ _ _ => True | _ => False end.

Lemma gcdfR_strict mu sigma a b : 0 < sigma -> nlt a b -> gcdfR mu sigma a < gcdfR mu sigma b.
Proof.
  intros Hs H. destruct a as [| |a|], b as [| |b|]; simpl in *; try tauto; try lra.
  - apply PhiR_range_strict.
  - apply PhiR_strict. apply Rmult_lt_compat_r; [now apply Rinv_0_lt_compat|lra].
  - apply PhiR_range_strict.
Qed.

Lemma gcdfR_range mu sigma a : 0 <= gcdfR mu sigma a <= 1.
Proof. destruct a; simpl; try lra. apply PhiR_range. Qed.

Lemma gauss_cdf_R mu sigma x : 0 < sigma -> x <> NaN -> gauss_cdf mu sigma x = Fin (gcdfR mu sigma x).
Proof. intros Hs Hx. unfold gauss_cdf. destruct (Rlt_dec 0 sigma); [|lra]. destruct x; try congruence; reflexivity. Qed.

Lemma ndiv_Fin x y : y <> 0 -> ndiv (Fin x) (Fin y) = Fin (x / y).
Proof. intros H. simpl. destruct (Req_EM_T y 0); congruence. Qed.

Lemma continuous_cdf_R d x : is_cont d -> dist_ok d -> x <> NaN -> continuous_cdf d x = Fin (cdfR d x).
Proof.
  intros Hc Hok Hx. destruct d as [v i|v l c|v mu s|v i mu s|v p|v p]; simpl in Hc; try tauto; unfold continuous_cdf; simpl in *.
  - destruct Hok as [a [b [Ea [Eb Hab]]]]. rewrite Ea, Eb. destruct x as [| |r|]; try congruence; cbn.
    + destruct (Rlt_dec (b + - a) 0); [lra|]. reflexivity.
    + destruct (Req_EM_T (b + - a) 0); [lra|]. reflexivity.
    + destruct (Rlt_dec (b + - a) 0); [lra|]. reflexivity.
  - apply gauss_cdf_R; auto.
  - destruct Hok as [Hs [H1 [H2 H3]]]. destruct (left_included i x) eqn:E; [|reflexivity].
    unfold tg_const. rewrite !gauss_cdf_R by auto. cbn [nsub nopp nadd].
    pose proof (gcdfR_strict mu s _ _ Hs H3). rewrite ndiv_Fin by lra. reflexivity.
Qed.

Lemma Rmin_mono a b c : a <= b -> Rmin c a <= Rmin c b.
Proof. unfold Rmin. destruct (Rle_dec c a), (Rle_dec c b); lra. Qed.
Lemma Rmax_mono a b c : a <= b -> Rmax c a <= Rmax c b.
Proof. unfold Rmax. destruct (Rle_dec c a), (Rle_dec c b); lra. Qed.

Lemma left_included_nlt i a b : lo i <> NaN -> nlt a b -> left_included i a = true -> left_included i b = true.
Proof.
  unfold left_included. destruct (lo i) as [| |c|], a as [| |x|], b as [| |y|]; simpl; try tauto; try congruence; intros _ H;
    destruct (lc i); rb; try congruence; intros; try lra; auto.
Qed.

Lemma left_included_le i x : lo i <> NaN -> x <> NaN -> left_included i x = true -> nle (lo i) x.
Proof.
  unfold left_included, nle. destruct (lo i) as [| |c|], x as [| |y|]; simpl; try tauto; try congruence; intros _ _;
    destruct (lc i); rb; try congruence; intros; auto. destruct (Req_dec c y); [left; congruence|right; lra].
Qed.

Lemma cdfR_mono d : dist_ok d -> mono (cdfR d).
Proof.
  intros Hok x y Hxy. destruct d as [v i|v l c|v mu s|v i mu s|v p|v p]; simpl in *.
  - destruct Hok as [a [b [Ea [Eb Hab]]]]. rewrite Ea, Eb.
    destruct x as [| |x|], y as [| |y|]; simpl in *; try tauto; try lra.
    + apply Rmin_glb; [lra|apply Rmax_l].
    + apply Rmin_mono, Rmax_mono. apply Rmult_le_compat_r; [|lra]. left. apply Rinv_0_lt_compat. lra.
    + apply Rmin_l.
  - destruct x as [| |x|], y as [| |y|]; simpl in *; try tauto; rb; lra.
  - left. now apply gcdfR_strict.
  - destruct Hok as [Hs [H1 [H2 H3]]]. pose proof (gcdfR_strict mu s _ _ Hs H3) as Hpos.
    assert (Hx : x <> NaN) by (destruct x; simpl in Hxy; congruence || tauto).
    assert (Hy : y <> NaN) by (destruct x, y; simpl in Hxy; congruence || tauto).
    destruct (left_included i x) eqn:E.
    + rewrite (left_included_nlt _ _ _ H1 Hxy E). apply Rmin_mono. apply Rmult_le_compat_r; [left; apply Rinv_0_lt_compat; lra|].
      pose proof (gcdfR_strict mu s _ _ Hs Hxy). lra.
    + destruct (left_included i y) eqn:E'; [|lra]. apply Rmin_glb; [lra|]. apply Rmult_le_pos; [|left; apply Rinv_0_lt_compat; lra].
      destruct (left_included_le _ _ H1 Hy E') as [->|H]; [lra|]. pose proof (gcdfR_strict mu s _ _ Hs H). lra.
  - destruct Hok as [[_ Hp] _]. apply Rsum_le. intros [k q] Hin. rewrite Forall_forall in Hp.
    assert (0 <= q) by (apply Hp; apply in_map_iff; exists (k, q); auto).
    destruct x as [| |x|], y as [| |y|]; simpl in *; try tauto; rb; lra.
  - destruct Hok as [[_ Hp] _]. apply Rsum_le. intros [k q] Hin. rewrite Forall_forall in Hp.
    assert (0 <= q) by (apply Hp; apply in_map_iff; exists (k, q); auto).
    destruct x as [| |x|], y as [| |y|]; simpl in *; try tauto; rb; lra.
Qed.

Lemma cdfR_NInf d : is_cont d -> dist_ok d -> cdfR d NInf = 0.
Proof.
  destruct d as [v i|v l c|v mu s|v i mu s|v p|v p]; simpl; try tauto; intros _ H.
  - destruct H as [a [b [-> [-> _]]]]. reflexivity.
  - destruct H as [Hs [H1 [H2 H3]]]. destruct (left_included i NInf) eqn:E; [|reflexivity].
    assert (lo i = NInf) as ->.
    { unfold left_included in E. destruct (lo i); congruence. }
    unfold Rminus, Rdiv. simpl. rewrite Rplus_opp_r, Rmult_0_l. unfold Rmin. destruct (Rle_dec 1 0); lra.
Qed.

Lemma cdfR_PInf d : is_cont d -> dist_ok d -> cdfR d PInf = 1.
Proof.
  destruct d as [v i|v l c|v mu s|v i mu s|v p|v p]; simpl; try tauto; intros _ H.
  - destruct H as [a [b [-> [-> _]]]]. reflexivity.
  - destruct H as [Hs [H1 [H2 H3]]]. pose proof (gcdfR_strict mu s _ _ Hs H3) as Hpos.
    assert (left_included i PInf = true) as ->.
    { unfold left_included. destruct (lo i) eqn:E; auto; try congruence; simpl in H3; tauto. }
    unfold Rmin. destruct (Rle_dec 1 _) as [_|n]; auto. exfalso. apply n.
    apply Rmult_le_reg_r with (gcdfR mu s (hi i) - gcdfR mu s (lo i)); [lra|].
    unfold Rdiv. rewrite Rmult_assoc, Rinv_l by lra. pose proof (gcdfR_range mu s (hi i)). simpl. lra.
Qed.

(** ** Real-valued probabilities *)

Definition probR (d : dist) (A : evset) : R :=
  match d, A with
  | DUnif _ _, EInt A | DGauss _ _ _, EInt A | DTGauss _ _ _ _, EInt A => measure (cdfR d) A
  | DDirac _ loc _, A => ind (in_evset A loc)
  | DSym _ p, A | DInt _ p, A => Rsum (map (fun kv => ind (in_evset A (IZR (fst kv))) * snd kv) p)
  | _, _ => 0
  end.

(** The assignment fits the distribution's variable and is what random_events guarantees. *)
Definition evset_ok (d : dist) (A : evset) : Prop :=
  match d, A with
  | DSym _ _, ESym l => NoDup l
  | DSym _ _, _ => False
  | _, EInt A => interval_ok A /\ A <> []
  | _, _ => False
  end.

Lemma nsum_map_Fin {X} (f : X -> num) (h : X -> R) l : (forall x, In x l -> f x = Fin (h x)) ->
  nsum (map f l) = Fin (Rsum (map h l)).
Proof.
  intros H. rewrite <- nsum_Fin, map_map. f_equal. apply map_ext_in. auto.
Qed.

Lemma sint_ok_num i : sint_ok i -> lo i <> NaN /\ hi i <> NaN.
Proof. intros [H1 [_ [H2 _]]]. auto. Qed.

Lemma continuous_prob_R d A : is_cont d -> dist_ok d -> interval_ok A -> A <> [] ->
  continuous_prob d A = Some (Fin (measure (cdfR d) A)).
Proof.
  intros Hc Hok [HA _] Hne. unfold continuous_prob. destruct A as [|i A]; [congruence|]. f_equal.
  apply nsum_map_Fin. intros j Hj. rewrite Forall_forall in HA. destruct (sint_ok_num j (HA j Hj)).
  rewrite !continuous_cdf_R by auto. reflexivity.
Qed.

Lemma int_prob_fold A p : forall acc,
  fold_left (fun acc kv => if in_interval A (IZR (fst kv)) then acc + snd kv else acc) p acc =
  acc + Rsum (map (fun kv : Z * R => ind (in_interval A (IZR (fst kv))) * snd kv) p).
Proof.
  induction p as [|[k q] p IH]; intros acc; simpl; [lra|]. rewrite IH. unfold ind. destruct (in_interval A (IZR k)); lra.
Qed.

Lemma dget_In p k q : NoDup (keys p) -> In (k, q) p -> dget p k = q.
Proof.
  unfold dget. induction p as [|[k' q'] p IH]; simpl; [tauto|]. intros H. inversion H; subst.
  destruct (Z.eqb_spec k' k).
  - subst. intros [E|Hin]; [now inversion E|]. exfalso. apply H2. apply in_map_iff. exists (k, q). auto.
  - intros [E|Hin]; [inversion E; congruence|]. auto.
Qed.

Lemma dget_absent p k : ~ In k (keys p) -> dget p k = 0.
Proof.
  unfold dget. induction p as [|[k' q'] p IH]; simpl; auto. intros H. destruct (Z.eqb_spec k' k); [tauto|]. apply IH. tauto.
Qed.

Lemma dget_cons k q p x : dget ((k, q) :: p) x = if Z.eqb k x then q else dget p x.
Proof. unfold dget. simpl. destruct (Z.eqb k x); reflexivity. Qed.

Lemma in_esym l k : in_evset (ESym l) (IZR k) = existsb (Z.eqb k) l.
Proof.
  simpl. induction l as [|a l IH]; simpl; auto. rewrite IH. f_equal. destruct (Reqb_spec (IZR a) (IZR k)), (Z.eqb_spec k a); auto.
  - apply eq_IZR in e. congruence.
  - subst. congruence.
Qed.

Lemma existsb_Zeqb k l : existsb (Z.eqb k) l = true <-> In k l.
Proof.
  rewrite existsb_exists. split; [intros [x [H E]]|intros H; exists k]; [apply Z.eqb_eq in E; now subst|].
  split; auto. apply Z.eqb_refl.
Qed.

(** Summing a dictionary over a duplicate-free list of keys. *)
Lemma Rsum_dget p l : NoDup (keys p) -> NoDup l ->
  Rsum (map (dget p) l) = Rsum (map (fun kv => ind (existsb (Z.eqb (fst kv)) l) * snd kv) p).
Proof.
  intros Hp Hl. induction p as [|[k q] p IH].
  - simpl. apply Rsum_zero. reflexivity.
  - cbn [keys map fst] in Hp. inversion Hp as [|? ? Hk Hp']; subst. cbn [map fst snd]. cbn [Rsum fold_right]. fold (Rsum (map (fun kv : Z * R => ind (existsb (Z.eqb (fst kv)) l) * snd kv) p)). rewrite <- IH by auto.
    clear IH. assert (Hkp : dget p k = 0) by (apply dget_absent; auto).
    induction l as [|x l IHl]; simpl; [unfold ind; lra|]. inversion Hl as [|? ? Hx Hl']; subst.
    rewrite dget_cons. specialize (IHl Hl'). rewrite IHl. destruct (Z.eqb_spec k x).
    + subst x. simpl. assert (existsb (Z.eqb k) l = false) as ->.
      { apply not_true_is_false. rewrite existsb_Zeqb. auto. }
      unfold ind. rewrite Hkp. lra.
    + simpl. unfold ind. lra.
Qed.

Theorem prob1_R d A : dist_ok d -> evset_ok d A -> prob1 d A = Some (Fin (probR d A)).
Proof.
  intros Hok HA. destruct d as [v i|v l c|v mu s|v i mu s|v p|v p], A as [A|L]; simpl in HA; try tauto.
  - apply continuous_prob_R; simpl; tauto.
  - simpl. unfold ind. destruct (in_interval A l); reflexivity.
  - apply continuous_prob_R; simpl; tauto.
  - apply continuous_prob_R; simpl; tauto.
  - simpl. do 2 f_equal. rewrite Rsum_dget; auto; [|apply Hok]. apply Rsum_ext. intros kv _.
    change (existsb (fun k => Reqb (IZR k) (IZR (fst kv))) L) with (in_evset (ESym L) (IZR (fst kv))). now rewrite in_esym.
  - simpl. rewrite int_prob_fold. do 2 f_equal. apply Rplus_0_l.
Qed.

Lemma ind_range b : 0 <= ind b <= 1.
Proof. destruct b; simpl; lra. Qed.

Lemma probR_nonneg d A : dist_ok d -> evset_ok d A -> 0 <= probR d A.
Proof.
  intros Hok HA. destruct d as [v i|v l c|v mu s|v i mu s|v p|v p], A as [A|L]; simpl in HA; try tauto;
    try (apply measure_nonneg; [now apply cdfR_mono|tauto]); simpl; try apply ind_range.
  all: apply Rsum_nonneg, Forall_map, Forall_forall; intros [k q] Hin; simpl; destruct Hok as [[_ Hp] _];
    rewrite Forall_forall in Hp; apply Rmult_le_pos; [apply ind_range|apply Hp; apply in_map_iff; exists (k, q); auto].
Qed.

Lemma probR_mono d A B : dist_ok d -> evset_ok d A -> evset_ok d B ->
  (forall x, in_evset A x = true -> in_evset B x = true) -> probR d A <= probR d B.
Proof.
  intros Hok HA HB Hx. destruct d as [v i|v l c|v mu s|v i mu s|v p|v p], A as [A|L], B as [B|M]; simpl in HA, HB; try tauto;
    try (apply measure_mono; [now apply cdfR_mono|tauto|tauto|exact Hx]).
  - simpl in *. specialize (Hx l). unfold ind. destruct (in_interval A l), (in_interval B l); try lra; discriminate (Hx eq_refl).
  - simpl. apply Rsum_le. intros [k q] Hin. destruct Hok as [[_ Hp] _]. rewrite Forall_forall in Hp.
    assert (0 <= q) by (apply Hp; apply in_map_iff; exists (k, q); auto). apply Rmult_le_compat_r; auto.
    specialize (Hx (IZR k)). simpl in *. unfold ind. do 2 destruct (existsb _ _); try lra; discriminate (Hx eq_refl).
  - simpl. apply Rsum_le. intros [k q] Hin. destruct Hok as [[_ Hp] _]. rewrite Forall_forall in Hp.
    assert (0 <= q) by (apply Hp; apply in_map_iff; exists (k, q); auto). apply Rmult_le_compat_r; auto.
    specialize (Hx (IZR k)). simpl in *. unfold ind. do 2 destruct (in_interval _ _); try lra; discriminate (Hx eq_refl).
Qed.

Lemma probR_split d A B C : dist_ok d -> evset_ok d A -> evset_ok d B -> evset_ok d C ->
  (forall x, in_evset C x = in_evset A x || in_evset B x) -> (forall x, in_evset A x && in_evset B x = false) ->
  probR d C = probR d A + probR d B.
Proof.
  intros Hok HA HB HC H1 H2.
  assert (Hi : forall x, ind (in_evset C x) = ind (in_evset A x) + ind (in_evset B x)).
  { intros x. rewrite H1. specialize (H2 x). unfold ind. destruct (in_evset A x), (in_evset B x); simpl in *; try lra; discriminate. }
  destruct d as [v i|v l c|v mu s|v i mu s|v p|v p], A as [A|L], B as [B|M], C as [C|N];
    simpl in HA, HB, HC; try tauto; try (apply measure_split; tauto).
  - apply Hi.
  - unfold probR. rewrite <- Rsum_plus. apply Rsum_ext. intros kv _. rewrite Hi. ring.
  - unfold probR. rewrite <- Rsum_plus. apply Rsum_ext. intros kv _. rewrite Hi. ring.
Qed.

(** The probability of the same set of points is the same. *)
Lemma probR_ext d A B : dist_ok d -> evset_ok d A -> evset_ok d B -> (forall x, in_evset A x = in_evset B x) ->
  probR d A = probR d B.
Proof.
  intros Hok HA HB H. apply Rle_antisym; apply probR_mono; auto; intros x; rewrite H; auto.
Qed.

(** The whole domain: every point (interval kinds) or at least every key of the dictionary (symbolic). *)
Definition covers (d : dist) (A : evset) : Prop :=
  match d with
  | DSym _ p => forall k, In k (keys p) -> in_evset A (IZR k) = true
  | _ => forall x, in_evset A x = true
  end.

Lemma probR_total d A : dist_ok d -> evset_ok d A -> covers d A -> probR d A = 1.
Proof.
  intros Hok HA Hx.
  assert (Hd : forall p, Rsum (vals p) = 1 -> (forall k, In k (keys p) -> in_evset A (IZR k) = true) ->
    Rsum (map (fun kv => ind (in_evset A (IZR (fst kv))) * snd kv) p) = 1).
  { intros p H1 H2. rewrite <- H1. unfold vals. apply Rsum_ext. intros [k q] Hin. simpl. rewrite H2; [simpl; ring|].
    apply in_map_iff. exists (k, q). auto. }
  destruct d as [v i|v l c|v mu s|v i mu s|v p|v p]; simpl in Hx; unfold probR.
  - destruct A as [A|L]; simpl in HA; [|tauto]. rewrite (measure_pointset _ A [ireals]); auto; try apply ireals_ok; [|apply HA].
    unfold measure, delta. cbn [map Rsum fold_right ireals lo hi].
    rewrite (cdfR_PInf (DUnif v i)), (cdfR_NInf (DUnif v i)) by (simpl; auto). lra.
  - rewrite Hx. reflexivity.
  - destruct A as [A|L]; simpl in HA; [|tauto]. rewrite (measure_pointset _ A [ireals]); auto; try apply ireals_ok; [|apply HA].
    unfold measure, delta. simpl. lra.
  - destruct A as [A|L]; simpl in HA; [|tauto]. rewrite (measure_pointset _ A [ireals]); auto; try apply ireals_ok; [|apply HA].
    unfold measure, delta. cbn [map Rsum fold_right ireals lo hi].
    rewrite (cdfR_PInf (DTGauss v i mu s)), (cdfR_NInf (DTGauss v i mu s)) by (simpl; auto). lra.
  - apply Hd; [apply Hok|]. auto.
  - apply Hd; [apply Hok|]. auto.
Qed.

Lemma probR_le_1 d A : dist_ok d -> evset_ok d A -> probR d A <= 1.
Proof.
  intros Hok HA. destruct d as [v i|v l c|v mu s|v i mu s|v p|v p].
  all: try (rewrite <- (probR_total _ (EInt [ireals]) Hok);
    [apply probR_mono; auto; simpl; try (split; [apply ireals_ok|discriminate])
    |simpl; split; [apply ireals_ok|discriminate]|simpl; auto]).
  destruct Hok as [[_ Hp] <-]. unfold probR, vals. apply Rsum_le. intros [k q] Hin. simpl. rewrite Forall_forall in Hp.
  assert (0 <= q) by (apply Hp; apply in_map_iff; exists (k, q); auto).
  match goal with |- ind ?b * _ <= _ => pose proof (ind_range b) end. nra.
Qed.
