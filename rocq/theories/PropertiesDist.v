(** * Properties C06, C07, C27, C28, C31, C32, C33: univariate distributions *)
From Coq Require Import List Arith Bool Lia Reals Lra ZArith Sorting.Sorted Permutation.
From Coquelicot Require Import Coquelicot.
From Verif Require Import Num Interval GaussInt Dist DistFacts MomentFacts CondFacts.
Import ListNotations.
Local Open Scope R_scope.

(** ** C06 *)

(** The density of a uniform distribution between [a] and [b]; the bounds themselves may belong to the support or not. *)
Definition is_unif_density (i : sint) (a b : R) (f : R -> R) : Prop :=
  (forall x, a < x < b -> f x = / (b - a)) /\ (forall x, x < a \/ b < x -> f x = 0) /\
  f a = (if lc i then / (b - a) else 0) /\ f b = (if rc i then / (b - a) else 0).

Lemma unif_density v i a b : lo i = Fin a -> hi i = Fin b -> a < b ->
  exists f, is_unif_density i a b f /\ forall x, nexp (ll1 (DUnif v i) x) = Fin (f x).
Proof.
  intros E1 E2 Hab. exists (fun x => if in_sint i x then / (b - a) else 0). split.
  - unfold is_unif_density, in_sint, above, below. rewrite E1, E2. repeat split; intros; destruct (lc i), (rc i); rb; simpl; auto; lra.
  - intros x. simpl. destruct (in_sint i x); auto. rewrite E1, E2. simpl.
    destruct (total_order_T (b + - a) 0) as [[H|H]|H]; try lra. simpl. replace (b + - a) with (b - a) by ring. rewrite exp_Ropp, exp_ln by lra. reflexivity.
Qed.

(** Integrals of (x - c)^n f(x) over the parts of the line. *)
Lemma integral_zero (f : R -> R) (m M : R) : (forall x, Rmin m M < x < Rmax m M -> f x = 0) -> is_RInt f m M 0.
Proof.
  intros H. apply (is_RInt_ext (fun _ => 0)); [intros x Hx; symmetry; auto|].
  assert (I := is_RInt_const (V := R_NormedModule) m M 0).
  match type of I with is_RInt _ _ _ ?v => assert (E : v = 0) by (unfold scal; simpl; unfold mult; simpl; ring); rewrite E in I end.
  exact I.
Qed.

Lemma integral_pow (c : R) n (p q : R) :
  is_RInt (fun x => (x - c) ^ n) p q ((q - c) ^ (n + 1) / INR (n + 1) - (p - c) ^ (n + 1) / INR (n + 1)).
Proof.
  apply (is_RInt_derive (fun x => (x - c) ^ (n + 1) / INR (n + 1)) (fun x => (x - c) ^ n)).
  - intros x _. assert (INR (n + 1) <> 0) by (apply not_0_INR; lia).
    auto_derive; auto. replace (pred (n + 1)) with n by lia. fold (x - c).
    rewrite Rmult_1_l, (Rmult_comm (INR (n + 1))), Rmult_assoc, Rinv_r, Rmult_1_r; auto.
  - intros x _. apply (ex_derive_continuous (fun x => (x - c) ^ n)). auto_derive. auto.
Qed.

Lemma unif_piece i a b f c n (p q : R) : is_unif_density i a b f -> a < b -> a <= p -> p <= q -> q <= b ->
  is_RInt (fun x => (x - c) ^ n * f x) p q
    (/ (b - a) * ((q - c) ^ (n + 1) / INR (n + 1) - (p - c) ^ (n + 1) / INR (n + 1))).
Proof.
  intros [H1 _] Hab Hp Hpq Hq. apply (is_RInt_ext (fun x => scal (/ (b - a)) ((x - c) ^ n))).
  - intros x. rewrite Rmin_left, Rmax_right by lra. intros Hx. rewrite H1 by lra. unfold scal; simpl; unfold mult; simpl. ring.
  - apply (is_RInt_scal (V := R_NormedModule)). apply integral_pow.
Qed.

Lemma unif_integral i a b f c n (m M : R) : is_unif_density i a b f -> a < b -> m <= a -> b <= M ->
  is_RInt (fun x => (x - c) ^ n * f x) m M (unif_moment a b n c).
Proof.
  intros Hf Hab Hm HM. assert (Hf' := Hf). destruct Hf' as [H1 [H2 _]].
  assert (I1 : is_RInt (fun x => (x - c) ^ n * f x) m a 0).
  { apply integral_zero. intros x. rewrite Rmin_left, Rmax_right by lra. intros Hx. rewrite H2 by lra. ring. }
  assert (I3 : is_RInt (fun x => (x - c) ^ n * f x) b M 0).
  { apply integral_zero. intros x. rewrite Rmin_left, Rmax_right by lra. intros Hx. rewrite H2 by lra. ring. }
  assert (I2 := unif_piece i a b f c n a b Hf Hab ltac:(lra) ltac:(lra) ltac:(lra)).
  assert (I := is_RInt_Chasles _ _ _ _ _ _ (is_RInt_Chasles _ _ _ _ _ _ I1 I2) I3).
  match type of I with is_RInt _ _ _ ?v => replace (unif_moment a b n c) with v; [exact I|] end.
  unfold plus; simpl. unfold unif_moment, unif_pdf. rewrite exp_Ropp, exp_ln by lra.
  assert (INR (n + 1) <> 0) by (apply not_0_INR; lia). field. split; auto. lra.
Qed.

(** Density, cdf as the integral of the density, total mass and all moments of a uniform distribution. *)
Theorem C06_uniform v i a b : lo i = Fin a -> hi i = Fin b -> a < b ->
  exists f, is_unif_density i a b f /\ (forall x, nexp (ll1 (DUnif v i) x) = Fin (f x)) /\
    (forall m x, m <= a -> exists F, cdf1 (DUnif v i) (Fin x) = Some (Fin F) /\ (m <= x -> is_RInt f m x F) /\ (x <= m -> F = 0)) /\
    (forall m M, m <= a -> b <= M -> is_RInt f m M 1) /\
    (forall n c m M, m <= a -> b <= M ->
       exists k, moment1 (DUnif v i) n c = Some k /\ is_RInt (fun x => (x - c) ^ n * f x) m M k).
Proof.
  intros E1 E2 Hab. destruct (unif_density v i a b E1 E2 Hab) as [f [Hf Hll]]. exists f. split; auto. split; auto.
  assert (Hf' := Hf). destruct Hf' as [H1 [H2 _]].
  assert (Hone : forall p q, a <= p -> p <= q -> q <= b -> is_RInt f p q ((q - p) / (b - a))).
  { intros p q Hp Hpq Hq. assert (I := unif_piece i a b f 0 0 p q Hf Hab Hp Hpq Hq).
    match type of I with is_RInt _ _ _ ?v => replace ((q - p) / (b - a)) with v by (simpl; field; lra) end.
    eapply is_RInt_ext; [|exact I]. intros x _. simpl. ring. }
  assert (Hz1 : forall p q, p <= q -> q <= a -> is_RInt f p q 0).
  { intros p q Hpq Hq. apply integral_zero. intros x. rewrite Rmin_left, Rmax_right by lra. intros Hx. apply H2. lra. }
  assert (Hz2 : forall p q, p <= q -> b <= p -> is_RInt f p q 0).
  { intros p q Hpq Hq. apply integral_zero. intros x. rewrite Rmin_left, Rmax_right by lra. intros Hx. apply H2. lra. }
  assert (Hcdf : forall m x, m <= a -> exists F, cdf1 (DUnif v i) (Fin x) = Some (Fin F) /\ (m <= x -> is_RInt f m x F) /\ (x <= m -> F = 0)).
  { intros m x Hm. exists (cdfR (DUnif v i) (Fin x)). split; [|split].
    - apply cdf1_cont; simpl; eauto. discriminate.
    - intros Hmx. destruct (Rle_dec x a) as [Hxa|Hxa]; [|destruct (Rle_dec x b) as [Hxb|Hxb]].
      + rewrite (unif_cdf_left v i a b _ E1 E2 Hab); [apply Hz1; lra|]. destruct (Req_dec x a); [left; congruence|right; simpl; lra].
      + rewrite (unif_cdf_in v i a b) by (auto; lra).
        assert (J := is_RInt_Chasles _ _ _ _ _ _ (Hz1 m a Hm ltac:(lra)) (Hone a x ltac:(lra) ltac:(lra) Hxb)).
        match type of J with is_RInt _ _ _ ?w => replace ((x - a) / (b - a)) with w by (unfold plus; simpl; ring) end. exact J.
      + rewrite (unif_cdf_right v i a b _ E1 E2 Hab); [|right; simpl; lra].
        assert (J := is_RInt_Chasles _ _ _ _ _ _ (is_RInt_Chasles _ _ _ _ _ _ (Hz1 m a Hm ltac:(lra)) (Hone a b ltac:(lra) ltac:(lra) ltac:(lra)))
                      (Hz2 b x ltac:(lra) ltac:(lra))).
        match type of J with is_RInt _ _ _ ?w => replace 1 with w by (unfold plus; simpl; field; lra) end. exact J.
    - intros Hx. apply (unif_cdf_left v i a b); auto. destruct (Req_dec x a); [left; congruence|right; simpl; lra]. }
  split; [exact Hcdf|]. split.
  - intros m M Hm HM. destruct (Hcdf m M Hm) as [F [EF [HF _]]].
    assert (F = 1) as ->.
    { rewrite cdf1_cont in EF; [|exact I|exists a, b; auto|discriminate]. assert (EF' : cdfR (DUnif v i) (Fin M) = F) by congruence.
      rewrite <- EF'. clear EF EF' HF.
      apply (unif_cdf_right v i a b); auto. destruct (Req_dec b M); [left; congruence|right; simpl; lra]. }
    apply HF. lra.
  - intros n c m M Hm HM. exists (unif_moment a b n c). split; [simpl; now rewrite E1, E2|]. eapply unif_integral; eauto.
Qed.

(** U[1,4): density 1/3 at 2, total mass 1. *)
Example C06_example : exists f, is_unif_density (iclosed_open 1 4) 1 4 f /\ f 2 = / 3 /\ f 4 = 0 /\ is_RInt f 0 9 1.
Proof.
  destruct (C06_uniform 0 (iclosed_open 1 4) 1 4 eq_refl eq_refl ltac:(lra)) as [f [H1 [_ [_ [H2 _]]]]].
  exists f. repeat split; auto; try apply H1; [|apply H2; lra]. destruct H1 as [H1 _]. rewrite H1; lra.
Qed.

(** ** C07 *)

(** [B] is the intersection of the interval [A] with the condition [j]. *)
Definition is_intersection (A : interval) (j : sint) (B : interval) : Prop :=
  interval_ok B /\ forall x, in_interval B x = in_interval A x && in_sint j x.

(** Conditioning a continuous distribution (uniform, Gaussian, truncated Gaussian) on a non-singleton interval inside its
    support: it reports log P(E) and the result obeys P(A | E) = P(A and E) / P(E). *)
Theorem C07_truncation d j : is_cont d -> dist_ok d -> sint_ok j -> nlt (lo j) (hi j) -> inside d j ->
  exists q pE, cond_simple_interval d j = Some (q, nlog (Fin pE)) /\ dvar q = dvar d /\
    prob1 d (EInt [j]) = Some (Fin pE) /\ 0 < pE /\
    forall A B, interval_ok A -> A <> [] -> is_intersection A j B ->
      exists pq pB, prob1 q (EInt A) = Some (Fin pq) /\ pq = pB / pE /\
        (B <> [] -> prob1 d (EInt B) = Some (Fin pB)) /\ (B = [] -> pB = 0).
Proof.
  intros Hc Hok Hj Hlt Hin.
  destruct (cond_simple_interval_bayes d j Hc Hok Hj Hlt Hin) as [q [E [Hqc [Hqok [Hv [Hpos Hq]]]]]].
  assert (Hp : forall d A, is_cont d -> dist_ok d -> interval_ok A -> A <> [] -> prob1 d (EInt A) = Some (Fin (probR d (EInt A)))).
  { intros d0 A Hc0 Hok0 HA Hne. apply prob1_R; auto. destruct d0; simpl in *; tauto. }
  exists q, (probR d (EInt [j])). repeat (split; auto).
  - apply Hp; auto; [|discriminate]. split; [constructor; auto|simpl; split; auto; intros ? []].
  - intros A B HA Hne [HB HAB]. exists (probR q (EInt A)), (probR d (EInt B)).
    split; [apply Hp; auto|]. split; [apply Hq; auto|]. split; [intros; apply Hp; auto|].
    intros ->. destruct d; simpl in *; tauto || reflexivity.
Qed.

(** U[0,4] given (1,2]: P(A) = 1/4. *)
Example C07_example : exists q, cond_simple_interval (DUnif 3 (iclosed 0 4)) (mkSint (Fin 1) (Fin 2) false true) = Some (q, nlog (Fin (1/4))).
Proof.
  destruct (C07_truncation (DUnif 3 (iclosed 0 4)) (mkSint (Fin 1) (Fin 2) false true)) as [q [pE [H1 [_ [H2 _]]]]]; simpl; auto.
  - exists 0, 4. repeat split; auto; lra.
  - repeat split; try discriminate. left. simpl. lra.
  - lra.
  - split; right; simpl; lra.
  - exists q. rewrite H1. do 3 f_equal. cbn in H2. unfold continuous_cdf in H2. cbn in H2.
    destruct (Req_EM_T (4 + - 0) 0); [lra|]. injection H2 as <-.
    replace ((2 + - 0) / (4 + - 0)) with (1/2) by field. replace ((1 + - 0) / (4 + - 0)) with (1/4) by field.
    rewrite !Rmax_right, !Rmin_right by lra. change (nlog (Fin (1 / 2 + - (1 / 4) + 0)) = nlog (Fin (1 / 4))). do 2 f_equal. field.
Qed.

(** ** C27 *)
Definition C27_full : Prop := forall v loc cap n c, moment1 (DDirac v loc cap) n c = Some ((loc - c) ^ n).

(** Missing: orders of at least 2 about a centre other than the location, where the code returns 0. *)
Theorem C27_dirac_moment_partial v loc cap n c : (n <= 1)%nat \/ c = loc -> moment1 (DDirac v loc cap) n c = Some ((loc - c) ^ n).
Proof.
  intros H. simpl. f_equal. destruct n as [|[|n]]; simpl; try ring. destruct H as [H | ->]; [lia|]. ring.
Qed.

Theorem C27_dirac_moment_refuted : ~ C27_full.
Proof. intros H. specialize (H 0%nat 3 (Fin 1) 2%nat 1). simpl in H. injection H as H. lra. Qed.

(** Exactly which moments are wrong. *)
Theorem C27_dirac_moment_iff v loc cap n c : moment1 (DDirac v loc cap) n c = Some ((loc - c) ^ n) <-> (n <= 1)%nat \/ c = loc.
Proof.
  split; [|apply C27_dirac_moment_partial]. intros H. destruct (Req_dec c loc); auto. left.
  destruct n as [|[|n]]; auto. exfalso. cbn [moment1 dirac_moment] in H. injection H as H.
  assert ((loc - c) ^ S (S n) <> 0) by (apply pow_nonzero; lra). apply H1. symmetry. exact H.
Qed.

(** ** C28 *)
Theorem C28_gaussian_moments v mu sigma c :
  moment1 (DGauss v mu sigma) 0 c = Some 1 /\ moment1 (DGauss v mu sigma) 1 c = Some (mu - c) /\
  forall n m0 m1, moment1 (DGauss v mu sigma) n c = Some m0 -> moment1 (DGauss v mu sigma) (S n) c = Some m1 ->
    moment1 (DGauss v mu sigma) (S (S n)) c = Some ((mu - c) * m1 + INR (S n) * sigma ^ 2 * m0).
Proof.
  cbn [moment1]. rewrite !gauss_moment_binom. split; [unfold binom; simpl; f_equal; ring|].
  split; [unfold binom; simpl; f_equal; ring|].
  intros n m0 m1. rewrite !gauss_moment_binom. intros H0 H1. injection H0 as <-. injection H1 as <-. f_equal.
  rewrite (binom_S (mu - c) (S n)), binom_shift_amom. reflexivity.
Qed.

(** The variance and the fourth central moment: sigma^2 and 3 sigma^4. *)
Example C28_example v mu sigma : moment1 (DGauss v mu sigma) 2 mu = Some (sigma ^ 2) /\ moment1 (DGauss v mu sigma) 4 mu = Some (3 * sigma ^ 4).
Proof.
  destruct (C28_gaussian_moments v mu sigma mu) as [M0 [M1 M]].
  assert (M2 := M _ _ _ M0 M1). assert (M3 := M _ _ _ M1 M2). assert (M4 := M _ _ _ M2 M3).
  rewrite M2, M4. simpl. split; f_equal; ring.
Qed.

(** ** C32 *)

(** The specification: total probability of the values at most [x]. *)
Definition mass_upto (p : dict) (x : R) : R := Rsum (map snd (filter (fun kv => Rleb (IZR (fst kv)) x) p)).

Definition C32_full : Prop := forall p xs, dict_ok p -> xs <> [] -> int_cdf_batch p xs = Some (map (mass_upto p) xs).

Lemma filter_none {A} (f : A -> bool) l : (forall x, In x l -> f x = false) -> filter f l = [].
Proof. induction l as [|a l IH]; simpl; intros H; auto. rewrite (H a (or_introl eq_refl)). apply IH. auto. Qed.

Lemma Rmax_fold_ge l : forall a, a <= fold_left Rmax l a /\ (forall x, In x l -> x <= fold_left Rmax l a).
Proof.
  induction l as [|b l IH]; simpl; intros a; [split; [lra|tauto]|]. destruct (IH (Rmax a b)) as [H1 H2].
  assert (a <= Rmax a b) by apply Rmax_l. assert (b <= Rmax a b) by apply Rmax_r.
  split; [lra|]. intros x [<-|Hx]; [lra|auto].
Qed.

Lemma int_cdf_loop_sorted mx p x : StronglySorted Z.lt (keys p) -> x <= mx -> forall acc,
  int_cdf_loop mx p x acc = acc + mass_upto p x.
Proof.
  unfold mass_upto. intros Hs Hx. induction p as [|[k q] p IH]; intros acc; simpl; [lra|].
  simpl in Hs. inversion Hs as [|? ? Hs' Hk]; subst.
  destruct (Rltb_spec mx (IZR k)).
  - destruct (Rleb_spec (IZR k) x); [lra|].
    rewrite (filter_none _ p); [simpl; lra|]. intros [k' q'] Hin. simpl. rewrite Forall_forall in Hk.
    assert (Hlt : (k < k')%Z) by (apply Hk; apply in_map_iff; exists (k', q'); auto). apply IZR_lt in Hlt.
    destruct (Rleb_spec (IZR k') x); auto; lra.
  - rewrite IH by auto. destruct (Rleb_spec (IZR k) x); simpl; lra.
Qed.

(** Missing: dictionaries whose keys are not in ascending order, where the claim is false. *)
Theorem C32_integer_cdf_partial p xs : StronglySorted Z.lt (keys p) -> xs <> [] -> int_cdf_batch p xs = Some (map (mass_upto p) xs).
Proof.
  intros Hs Hx. destruct xs as [|x l]; [congruence|]. unfold int_cdf_batch. f_equal. apply map_ext_in. intros y Hy.
  rewrite int_cdf_loop_sorted; auto; [lra|]. destruct (Rmax_fold_ge l x) as [H1 H2]. destruct Hy as [<-|Hy]; auto.
Qed.

(** The same dictionary, the same point, asked alone or together with a larger point: different answers. *)
Theorem C32_integer_cdf_refuted : ~ C32_full.
Proof.
  intros H. specialize (H [(2%Z, 1/2); (1%Z, 1/2)] [1]). unfold int_cdf_batch, mass_upto in H. cbn in H.
  destruct (Rltb_spec 1 2); [|lra]. destruct (Rleb_spec 2 1); [lra|]. destruct (Rleb_spec 1 1); [|lra]. cbn in H.
  assert (Some [0] = Some [1 / 2 + 0]) as E; [|injection E as E; lra].
  apply H; [split; repeat constructor; cbn; try lra; intuition discriminate|discriminate].
Qed.

Example C32_example : int_cdf_batch [(1%Z, 1/4); (2%Z, 3/4)] [1; 5; 0] = Some [1/4; 1; 0].
Proof.
  rewrite C32_integer_cdf_partial; [|repeat constructor|discriminate].
  unfold mass_upto. cbn. do 2 f_equal; [|f_equal; [|f_equal]]; rb; simpl; lra.
Qed.

(** ** C33 *)

Definition lookup_spec (p : dict) (k : Z) (x : R) : Prop := In (k, x) p \/ (~ In k (map fst p) /\ x = 0).

Theorem C33_missing_dict p ks : NoDup (map fst p) ->
  snd (lookups p ks) = p /\ Forall2 (lookup_spec p) ks (fst (lookups p ks)).
Proof.
  intros Hn. induction ks as [|k ks [IH1 IH2]]; simpl; [auto|].
  assert (E : getitem missing_dict_missing p k = (fst (getitem missing_dict_missing p k), p) /\
              lookup_spec p k (fst (getitem missing_dict_missing p k))).
  { unfold getitem, missing_dict_missing, lookup_spec. destruct (find _ p) as [[k' q]|] eqn:F.
    - apply find_some in F. destruct F as [F E]. apply Z.eqb_eq in E. simpl in *. subst. auto.
    - split; auto. right. split; auto. intros Hk. apply in_map_iff in Hk. destruct Hk as [[k' q] [<- Hk]].
      apply (find_none _ _ F) in Hk. simpl in Hk. rewrite Z.eqb_refl in Hk. discriminate. }
  destruct E as [E1 E2]. destruct (getitem missing_dict_missing p k) as [x p1]. injection E1 as ->. simpl in *.
  destruct (lookups p ks) as [xs p2]. simpl in *. subst. auto.
Qed.

Example C33_example : snd (lookups [(1%Z, 1/4); (2%Z, 3/4)] [7%Z; 2%Z; 7%Z]) = [(1%Z, 1/4); (2%Z, 3/4)].
Proof. reflexivity. Qed.

(** ** C31 *)

(** *** fit *)
Lemma NoDup_map_in {A B} (f : A -> B) l : (forall x y, In x l -> In y l -> f x = f y -> x = y) -> NoDup l -> NoDup (map f l).
Proof.
  intros Hf Hn. induction Hn as [|x l Hx Hn IH]; simpl; constructor.
  - intros Hin. apply in_map_iff in Hin. destruct Hin as [y [E Hy]]. apply Hf in E; [subst; tauto|now right|now left].
  - apply IH. intros. apply Hf; auto; now right.
Qed.

Lemma zinsert_In x l y : In y (zinsert x l) <-> y = x \/ In y l.
Proof.
  induction l as [|z l IH]; simpl; [intuition|]. destruct (Z.compare_spec x z); simpl; subst; try rewrite IH; intuition.
Qed.

Lemma zinsert_sorted x l : StronglySorted Z.lt l -> StronglySorted Z.lt (zinsert x l).
Proof.
  induction l as [|z l IH]; simpl; intros H; [repeat constructor|]. inversion H as [|? ? Hs Hz]; subst.
  destruct (Z.compare_spec x z); subst; auto.
  - constructor; auto. constructor; auto. eapply Forall_impl; [|exact Hz]. simpl. lia.
  - constructor; auto. apply Forall_forall. intros y Hy. apply zinsert_In in Hy. rewrite Forall_forall in Hz.
    destruct Hy as [->|Hy]; auto.
Qed.

Lemma np_unique_In data x : In x (np_unique data) <-> In x data.
Proof. induction data as [|y l IH]; simpl; [tauto|]. rewrite zinsert_In, IH. intuition. Qed.

Lemma np_unique_sorted data : StronglySorted Z.lt (np_unique data).
Proof. induction data; simpl; [constructor|]. now apply zinsert_sorted. Qed.

Lemma sorted_NoDup l : StronglySorted Z.lt l -> NoDup l.
Proof.
  induction 1 as [|x l Hs IH Hx]; constructor; auto. intros Hin. rewrite Forall_forall in Hx. specialize (Hx x Hin). lia.
Qed.

Lemma dset_fresh p k q : ~ In k (keys p) -> dset p k q = p ++ [(k, q)].
Proof.
  intros H. unfold dset. destruct (existsb _ p) eqn:E; auto. exfalso. apply H. apply existsb_exists in E.
  destruct E as [[k' q'] [Hin E]]. apply Z.eqb_eq in E. simpl in E. subst. apply in_map_iff. exists (k, q'). auto.
Qed.

Lemma dfit_map h data : (forall x y, In x data -> In y data -> h x = h y -> x = y) ->
  dfit h data = map (fun x => (h x, INR (count x data) / INR (length data))) (np_unique data).
Proof.
  intros Hh. unfold dfit.
  assert (G : forall l acc, NoDup l -> (forall x, In x l -> In x data) -> (forall x, In x l -> ~ In (h x) (keys acc)) ->
    fold_left (fun acc x => dset acc (h x) (INR (count x data) / INR (length data))) l acc =
    acc ++ map (fun x => (h x, INR (count x data) / INR (length data))) l).
  { induction l as [|x l IH]; intros acc Hn Hd Hf; simpl; [now rewrite app_nil_r|]. inversion Hn; subst.
    rewrite dset_fresh by (apply Hf; now left). rewrite IH; auto.
    - now rewrite <- app_assoc.
    - intros y Hy. apply Hd. now right.
    - intros y Hy. unfold keys. rewrite map_app, in_app_iff. simpl. intros [Hin|[Hin|[]]].
      + apply (Hf y (or_intror Hy)). exact Hin.
      + apply Hh in Hin; [subst; tauto|apply Hd; now left|apply Hd; now right]. }
  rewrite G; auto.
  - apply sorted_NoDup, np_unique_sorted.
  - intros x. apply np_unique_In.
Qed.

Lemma count_spec x data : count x data = count_occ Z.eq_dec data x.
Proof.
  unfold count. induction data as [|y l IH]; simpl; auto. destruct (Z.eqb_spec x y), (Z.eq_dec y x); simpl; congruence.
Qed.

Lemma count_sum data : forall l, NoDup l -> (forall x, In x data -> In x l) ->
  Rsum (map (fun x => INR (count_occ Z.eq_dec data x)) l) = INR (length data).
Proof.
  intros l Hn. induction data as [|y data IH]; intros Hl.
  - simpl. apply Rsum_zero. intros; simpl. reflexivity.
  - rewrite (Rsum_ext _ (fun x => INR (count_occ Z.eq_dec data x) + (if Z.eq_dec y x then 1 else 0))).
    + rewrite Rsum_plus, IH by (intros; apply Hl; now right).
      assert (E : Rsum (map (fun x => if Z.eq_dec y x then 1 else 0) l) = 1).
      { assert (Hy : In y l) by (apply Hl; now left). clear - Hn Hy. induction l as [|z l IH]; [destruct Hy|].
        inversion Hn; subst. simpl. destruct (Z.eq_dec y z) as [<-|Hne].
        - rewrite Rsum_zero; [lra|]. intros x Hx. destruct (Z.eq_dec y x); congruence.
        - destruct Hy as [->|Hy]; [congruence|]. rewrite IH by auto. lra. }
      rewrite E. simpl length. rewrite S_INR. reflexivity.
    + intros x _. simpl. destruct (Z.eq_dec y x); [rewrite S_INR; reflexivity|lra].
Qed.

(** What a fitted dictionary should be, for keys [h x]: the relative frequency of each value, nothing else, total one. *)
Definition fitted (h : Z -> Z) (data : list Z) (p : dict) : Prop :=
  NoDup (keys p) /\ Rsum (vals p) = 1 /\
  (forall x, In x data -> In (h x, INR (count_occ Z.eq_dec data x) / INR (length data)) p) /\
  (forall k, In k (keys p) -> exists x, In x data /\ k = h x).

Lemma fit_injective h data : data <> [] -> (forall x y, In x data -> In y data -> h x = h y -> x = y) ->
  fitted h data (dfit h data).
Proof.
  intros Hne Hh. rewrite dfit_map by auto. unfold fitted, keys, vals. rewrite !map_map. simpl. repeat split.
  - apply NoDup_map_in; [|apply sorted_NoDup, np_unique_sorted].
    intros x y Hx Hy. apply Hh; now apply np_unique_In.
  - rewrite (Rsum_ext _ (fun x => / INR (length data) * INR (count_occ Z.eq_dec data x))).
    + rewrite Rsum_scal, count_sum; [|apply sorted_NoDup, np_unique_sorted|intros; now apply np_unique_In].
      field. apply not_0_INR. destruct data; simpl; congruence.
    + intros x _. rewrite count_spec. field. apply not_0_INR. destruct data; simpl; congruence.
  - intros x Hx. apply in_map_iff. exists x. rewrite count_spec. split; auto. now apply np_unique_In.
  - intros k Hk. apply in_map_iff in Hk. destruct Hk as [x [<- Hx]]. exists x. split; auto. now apply np_unique_In.
Qed.

(** *** normalize *)
Lemma dget_map p (f : R -> R) k : f 0 = 0 -> dget (map (fun kv => (fst kv, f (snd kv))) p) k = f (dget p k).
Proof.
  intros H0. induction p as [|[k' q] p IH]; simpl; [unfold dget; simpl; auto|]. rewrite !dget_cons, IH.
  destruct (Z.eqb k' k); reflexivity.
Qed.

Theorem C31_normalize p : Rsum (vals p) <> 0 ->
  Rsum (vals (dnormalize p)) = 1 /\ keys (dnormalize p) = keys p /\
  forall x y, dget (dnormalize p) x * dget p y = dget (dnormalize p) y * dget p x.
Proof.
  intros H. unfold dnormalize. set (s := Rsum (vals p)) in *. split; [|split].
  - unfold vals. rewrite map_map. simpl. rewrite (Rsum_ext _ (fun kv => / s * snd kv)) by (intros; unfold Rdiv; ring).
    rewrite Rsum_scal. apply Rinv_l. exact H.
  - unfold keys. now rewrite map_map.
  - intros x y. assert (Hz : 0 / s = 0) by (unfold Rdiv; ring). rewrite !(dget_map p (fun q => q / s)) by exact Hz. field. auto.
Qed.

(** *** conditioning *)

(** The probability of a set of values, from the dictionary alone. *)
Definition mass_in (p : dict) (A : evset) : R := Rsum (map snd (filter (fun kv => in_evset A (IZR (fst kv))) p)).

(** What conditioning on [A] should return. *)
Definition conditioned (p : dict) (A : evset) (res : option dict * num) : Prop :=
  let P := mass_in p A in
  (P = 0 -> res = (None, NInf)) /\
  (P <> 0 -> exists q, res = (Some q, Fin (ln P)) /\ Rsum (vals q) = 1 /\ NoDup (keys q) /\
     forall k, dget q k = if in_evset A (IZR k) then dget p k / P else 0).

Definition dict_of (d : dist) : dict := match d with DSym _ p | DInt _ p => p | _ => [] end.

Lemma mass_in_ind p A : mass_in p A = Rsum (map (fun kv => ind (in_evset A (IZR (fst kv))) * snd kv) p).
Proof.
  unfold mass_in. induction p as [|[k q] p IH]; simpl; auto. destruct (in_evset A (IZR k)); simpl; rewrite IH; lra.
Qed.

Lemma finish_conditioned mk p A q : (0 <= mass_in p A) -> Rsum (vals q) = mass_in p A -> NoDup (keys q) ->
  (forall k, dget q k = if in_evset A (IZR k) then dget p k else 0) ->
  exists res, conditioned p A res /\ finish_discrete mk q = (option_map mk (fst res), snd res).
Proof.
  intros Hpos Hs Hn Hg. unfold finish_discrete, conditioned. rewrite Hs. destruct (Reqb_spec (mass_in p A) 0) as [E|E].
  - exists (None, NInf). repeat split; auto. tauto.
  - exists (Some (dnormalize q), nlog (Fin (mass_in p A))). split; [|reflexivity]. split; [tauto|]. intros _.
    exists (dnormalize q). destruct (C31_normalize q) as [H1 [H2 _]]; [congruence|]. repeat split; auto.
    + f_equal. simpl. destruct (total_order_T (mass_in p A) 0) as [[H|H]|H]; auto; try lra. 
    + congruence.
    + intros k. unfold dnormalize. rewrite (dget_map q (fun x => x / Rsum (vals q))) by (unfold Rdiv; ring).
      rewrite Hs, Hg. destruct (in_evset A (IZR k)); [reflexivity|]. unfold Rdiv. ring.
Qed.

Lemma NoDup_filter_keys (f : Z * R -> bool) p : NoDup (keys p) -> NoDup (keys (filter f p)).
Proof.
  induction p as [|[k q] p IH]; simpl; auto. intros H. inversion H; subst. destruct (f (k, q)); simpl; auto.
  constructor; auto. intros Hin. apply H2. unfold keys in *. apply in_map_iff in Hin. destruct Hin as [x [E Hx]].
  apply filter_In in Hx. apply in_map_iff. exists x. tauto.
Qed.

Lemma dget_filter f p k : NoDup (keys p) -> dget (filter (fun kv : Z * R => f (fst kv)) p) k = if f k then dget p k else 0.
Proof.
  intros Hn. induction p as [|[k' q] p IH]; simpl.
  - unfold dget. simpl. now destruct (f k).
  - inversion Hn; subst. rewrite dget_cons. destruct (f k') eqn:E.
    + rewrite dget_cons, IH by auto. destruct (Z.eqb_spec k' k); [subst; now rewrite E|auto].
    + rewrite IH by auto. destruct (Z.eqb_spec k' k); auto. subst. now rewrite E.
Qed.

Lemma dget_pos_In p k : 0 < dget p k -> In k (keys p).
Proof.
  intros H. destruct (in_dec Z.eq_dec k (keys p)); auto. rewrite dget_absent in H by auto. lra.
Qed.

Lemma dget_nonneg p k : dict_ok p -> 0 <= dget p k.
Proof.
  intros [_ H]. unfold dget. destruct (find _ p) as [[k' q]|] eqn:E; [|lra]. apply find_some in E. destruct E as [E _].
  rewrite Forall_forall in H. apply H. apply in_map_iff. exists (k', q). auto.
Qed.

Lemma mass_in_nonneg p A : dict_ok p -> 0 <= mass_in p A.
Proof.
  intros [_ H]. unfold mass_in. apply Rsum_nonneg. apply Forall_forall. intros x Hx. apply in_map_iff in Hx. destruct Hx as [kv [<- Hx]].
  apply filter_In in Hx. rewrite Forall_forall in H. apply H. apply in_map_iff. exists kv. tauto.
Qed.

Theorem C31_conditional d A : dict_ok (dict_of d) ->
  match d, A with DSym _ _, ESym l => NoDup l | DInt _ _, EInt _ => True | _, _ => False end ->
  prob1 d A = Some (Fin (mass_in (dict_of d) A)) /\
  exists res mk, conditioned (dict_of d) A res /\ (forall q, dict_of (mk q) = q) /\
    discrete_cond d A = Some (option_map mk (fst res), snd res).
Proof.
  intros Hok Hk. destruct d as [v i|v loc c|v mu s|v i mu s|v p|v p], A as [A|l]; simpl in Hk; try tauto; simpl in Hok.
  - assert (Hn := proj1 Hok).
    assert (EP : Rsum (map (dget p) l) = mass_in p (ESym l)).
    { rewrite Rsum_dget by auto. rewrite mass_in_ind. apply Rsum_ext. intros kv _. now rewrite in_esym. }
    split; [cbn; now rewrite EP|]. cbn [discrete_cond dict_of].
    destruct (finish_conditioned (DSym v) p (ESym l) (sym_cond_dict p l)) as [res [H1 H2]].
    + now apply mass_in_nonneg.
    + rewrite <- EP. unfold sym_cond_dict, vals. rewrite map_map. simpl. clear - Hok. induction l as [|k l IH]; simpl; auto.
      destruct (Rltb_spec 0 (dget p k)); simpl; rewrite IH; auto. assert (0 <= dget p k) by now apply dget_nonneg. lra.
    + unfold sym_cond_dict, keys. rewrite map_map. simpl. rewrite map_id. now apply NoDup_filter.
    + intros k. rewrite in_esym. unfold sym_cond_dict.
      assert (G : forall l, dget (map (fun k => (k, dget p k)) l) k = if existsb (Z.eqb k) l then dget p k else 0).
      { clear. induction l as [|a l IH]; simpl; [reflexivity|]. rewrite dget_cons, IH, (Z.eqb_sym k a).
        destruct (Z.eqb_spec a k); simpl; subst; auto. }
      rewrite G. destruct (existsb (Z.eqb k) (filter _ l)) eqn:E.
      * apply existsb_Zeqb, filter_In in E. destruct E as [E _]. apply existsb_Zeqb in E. now rewrite E.
      * destruct (existsb (Z.eqb k) l) eqn:E'; auto. apply existsb_Zeqb in E'.
        destruct (Rltb_spec 0 (dget p k)) as [Hlt|Hge].
        -- exfalso. assert (X : existsb (Z.eqb k) (filter (fun k => Rltb 0 (dget p k)) l) = true); [|congruence].
           apply existsb_Zeqb, filter_In. split; auto. destruct (Rltb_spec 0 (dget p k)); auto; lra.
        -- assert (0 <= dget p k) by now apply dget_nonneg. lra.
    + exists res, (DSym v). split; auto. split; auto. now rewrite H2.
  - assert (Hn := proj1 Hok).
    split. { rewrite mass_in_ind. cbn. rewrite int_prob_fold, Rplus_0_l. reflexivity. }
    cbn [discrete_cond dict_of].
    destruct (finish_conditioned (DInt v) p (EInt A) (int_cond_dict p A)) as [res [H1 H2]].
    + now apply mass_in_nonneg.
    + reflexivity.
    + now apply NoDup_filter_keys.
    + intros k. unfold int_cond_dict. now rewrite (dget_filter (fun k => in_interval A (IZR k))).
    + exists res, (DInt v). split; auto. split; auto. now rewrite H2.
Qed.

(** *** fit: the keys are hash values, and hash(-1) = hash(-2) = -2 in CPython. *)
Definition C31_full : Prop := forall data, data <> [] -> fitted (fun x => x) data (dfit pyhash data).

(** Symbolic distributions: any injective hash of the elements. *)
Theorem C31_fit_symbolic h data : data <> [] -> (forall x y, In x data -> In y data -> h x = h y -> x = y) ->
  fitted h data (dfit h data).
Proof. apply fit_injective. Qed.

(** Missing: integer data with -1 or with values of at least 2^61 - 1 in magnitude; there the claim is false. *)
Theorem C31_fit_partial data : data <> [] ->
  (forall x, In x data -> x <> (-1)%Z /\ (Z.abs x < 2 ^ 61 - 1)%Z) -> fitted (fun x => x) data (dfit pyhash data).
Proof.
  intros Hne Hd.
  assert (Hid : forall x, In x data -> pyhash x = x).
  { intros x Hx. destruct (Hd x Hx) as [H1 H2]. unfold pyhash. rewrite Z.mod_small by lia.
    rewrite Z.mul_comm, Z.abs_sgn. destruct (Z.eqb_spec x (-1)); congruence. }
  destruct (fit_injective pyhash data Hne) as [F1 [F2 [F3 F4]]].
  - intros x y Hx Hy. now rewrite !Hid.
  - repeat split; auto.
    + intros x Hx. specialize (F3 x Hx). now rewrite Hid in F3.
    + intros k Hk. destruct (F4 k Hk) as [x [Hx E]]. exists x. rewrite Hid in E by auto. auto.
Qed.

(** The values -1 and -2 share one key: half of the probability is lost. *)
Theorem C31_fit_refuted : ~ C31_full.
Proof.
  intros H. destruct (H [(-1)%Z; (-2)%Z] ltac:(discriminate)) as [_ [H1 _]]. unfold dfit in H1. cbn in H1. lra.
Qed.

Example C31_example : dfit pyhash [3%Z; 0%Z; 3%Z; 7%Z] = [(0%Z, 1/4); (3%Z, 2/4); (7%Z, 1/4)] /\
  mass_in [(0%Z, 1/4); (3%Z, 2/4); (7%Z, 1/4)] (EInt [iclosed 1 8]) = 3/4.
Proof.
  split.
  - unfold dfit. cbn. replace (1 + 1 + 1 + 1) with 4 by ring. replace (1 + 1) with 2 by ring. reflexivity.
  - unfold mass_in. cbn. unfold in_sint, above, below. cbn. rb; cbn; lra.
Qed.

Print Assumptions C06_uniform.
Print Assumptions C07_truncation.
Print Assumptions C27_dirac_moment_partial.
Print Assumptions C27_dirac_moment_refuted.
Print Assumptions C27_dirac_moment_iff.
Print Assumptions C28_gaussian_moments.
Print Assumptions C31_normalize.
Print Assumptions C31_conditional.
Print Assumptions C31_fit_symbolic.
Print Assumptions C31_fit_partial.
Print Assumptions C31_fit_refuted.
Print Assumptions C32_integer_cdf_partial.
Print Assumptions C32_integer_cdf_refuted.
Print Assumptions C33_missing_dict.
