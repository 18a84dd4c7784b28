(** * GammaFacts: gamma functions at half-integers and moments of the half line *)
From Coquelicot Require Import Coquelicot.
From Coq Require Import List Arith Bool Lia Reals Lra.
From Verif Require Import Num Interval GaussInt GammaFn Dist DistFacts MomentFacts LeafCond GaussMoment.
Import ListNotations.
Local Open Scope R_scope.
Local Set Bullet Behavior "Strict Subproofs".

Lemma two_step (P : nat -> Prop) : P 0%nat -> P 1%nat -> (forall k, P k -> P (S (S k))) -> forall k, P k.
Proof. intros H0 H1 H k. assert (X : P k /\ P (S k)) by (induction k as [|k [A B]]; auto). apply X. Qed.

Lemma gamma_half_pos k : 0 < gamma_half k.
Proof.
  revert k. apply two_step; [apply sqrt_PI_pos|simpl; lra|]. intros k H. cbn [gamma_half].
  apply Rmult_lt_0_compat; auto. pose proof (pos_INR k). lra.
Qed.

(** ** The moments of the half line *)
Definition pk (k : nat) (z : R) : R := z ^ k * phi z.
Definition Mk (k : nat) (x : R) : R := RInt (pk k) 0 x.

Lemma pk_cont k x : continuous (pk k) x.
Proof.
  apply (continuous_mult (fun z => z ^ k) phi); [|apply phi_cont].
  apply (ex_derive_continuous (fun z : R => z ^ k)). auto_derive. auto.
Qed.
Lemma pk_ex k a b : ex_RInt (pk k) a b.
Proof. apply (ex_RInt_continuous (V := R_CompleteNormedModule)). intros. apply pk_cont. Qed.
Lemma Mk_int k a b : is_RInt (pk k) a b (Mk k b - Mk k a).
Proof.
  unfold Mk. assert (H := RInt_Chasles (V := R_CompleteNormedModule) (pk k) 0 a b (pk_ex k 0 a) (pk_ex k a b)).
  unfold plus in H; simpl in H. replace (RInt (pk k) 0 b - RInt (pk k) 0 a) with (RInt (pk k) a b) by lra.
  apply (RInt_correct (V := R_CompleteNormedModule)), pk_ex.
Qed.
Lemma Mk_derive k (x : R) : is_derive (Mk k) x (pk k x).
Proof.
  apply (is_derive_RInt (V := R_NormedModule) (pk k) _ 0).
  - apply filter_forall. intros b. apply (RInt_correct (V := R_CompleteNormedModule)), pk_ex.
  - apply pk_cont.
Qed.
Lemma Mk_0 k : Mk k 0 = 0.
Proof. unfold Mk. now rewrite RInt_point. Qed.

Lemma gkern_cont k x : continuous (gkern k) x.
Proof. apply (ex_derive_continuous (gkern k)). unfold gkern. auto_derive. auto. Qed.
Lemma gkern_ex k a b : ex_RInt (gkern k) a b.
Proof. apply (ex_RInt_continuous (V := R_CompleteNormedModule)). intros. apply gkern_cont. Qed.

Lemma two_pow k : Rpower 2 (INR k / 2) = sqrt 2 ^ k.
Proof. unfold Rdiv. rewrite Rmult_comm, <- Rpower_mult, Rpower_sqrt by lra. apply Rpower_pow, sqrt_lt_R0. lra. Qed.

(** The constant of the k-th moment: what [multiplying_constant] without the binomial coefficient is. *)
Definition gconst (k : nat) : R := Rpower 2 (INR k / 2) * gamma_half k / sqrt PI.

Lemma gkern_Mk k x : 0 <= x -> RInt (gkern k) 0 (x / sqrt 2) * (sqrt 2 ^ k / sqrt PI) / 2 = Mk k x.
Proof.
  intros Hx. assert (H2 : 0 < sqrt 2) by (apply sqrt_lt_R0; lra). assert (Hs2 : sqrt 2 * sqrt 2 = 2) by (apply sqrt_sqrt; lra).
  pose proof sqrt_PI_pos as Hp.
  pose proof (RInt_comp_lin (V := R_CompleteNormedModule) (gkern k) (/ sqrt 2) 0 0 x) as H.
  replace (/ sqrt 2 * 0 + 0) with 0 in H by ring. replace (/ sqrt 2 * x + 0) with (x / sqrt 2) in H by (field; lra).
  rewrite <- (H (gkern_ex _ _ _)). clear H.
  set (f := fun y => scal (/ sqrt 2) (gkern k (/ sqrt 2 * y + 0))).
  assert (Ex : ex_RInt f 0 x).
  { apply (ex_RInt_continuous (V := R_CompleteNormedModule)). intros z _. apply (ex_derive_continuous f).
    unfold f, scal; simpl; unfold mult; simpl. unfold gkern. auto_derive. auto. }
  assert (Q := RInt_scal (V := R_CompleteNormedModule) f 0 x (sqrt 2 ^ k / sqrt PI / 2) Ex).
  change (RInt (fun y => scal (sqrt 2 ^ k / sqrt PI / 2) (f y)) 0 x = sqrt 2 ^ k / sqrt PI / 2 * RInt f 0 x) in Q.
  match goal with |- ?a * _ / 2 = _ => change a with (RInt f 0 x) end.
  transitivity (sqrt 2 ^ k / sqrt PI / 2 * RInt f 0 x); [unfold Rdiv; ring|]. rewrite <- Q. unfold Mk.
  apply RInt_ext. intros t _. unfold f, scal; simpl; unfold mult; simpl. unfold pk, phi, gkern.
  rewrite sqrt_mult by (pose proof PI_RGT_0; lra). rewrite Rplus_0_r, Rpow_mult_distr, pow_inv.
  replace (- (/ sqrt 2 * t * (/ sqrt 2 * t))) with (- (t * t) / 2) by (rewrite <- Hs2 at 1; field; lra).
  assert (sqrt 2 ^ k <> 0) by (apply pow_nonzero; lra). field. repeat split; auto; lra.
Qed.

Lemma sqrt_half_square u : sqrt (u * u / 2) = Rabs u / sqrt 2.
Proof.
  unfold Rdiv at 1. assert (H2 : 0 < sqrt 2) by (apply sqrt_lt_R0; lra).
  rewrite sqrt_mult by (try apply Rle_0_sqr; lra). rewrite sqrt_inv, (sqrt_Rsqr_abs u : sqrt (u * u) = _). reflexivity.
Qed.

(** One side of the integral, as the code computes it. *)
Lemma gamma_cdf_Mk k u : gconst k * (/ 2 * gamma_cdf k (u * u / 2)) = Mk k (Rabs u).
Proof.
  unfold gconst, gamma_cdf. pose proof (gamma_half_pos k). pose proof sqrt_PI_pos.
  destruct (Rle_dec (u * u / 2) 0) as [Hu|Hu].
  - assert (u = 0) by nra. subst u. rewrite Rabs_R0, Mk_0. ring.
  - rewrite sqrt_half_square, <- (gkern_Mk k (Rabs u)) by apply Rabs_pos. rewrite two_pow. field. lra.
Qed.

Lemma Mk_opp k u : Mk k (- u) = (-1) ^ S k * Mk k u.
Proof.
  unfold Mk. pose proof (RInt_comp_lin (V := R_CompleteNormedModule) (pk k) (-1) 0 0 u) as H.
  replace (-1 * 0 + 0) with 0 in H by ring. replace (-1 * u + 0) with (- u) in H by ring. rewrite <- (H (pk_ex _ _ _)).
  change ((-1) ^ S k * RInt (pk k) 0 u) with (scal ((-1) ^ S k) (RInt (pk k) 0 u)).
  rewrite <- (RInt_scal (V := R_CompleteNormedModule)) by apply pk_ex.
  apply RInt_ext. intros t _. unfold scal; simpl; unfold mult; simpl. unfold pk, phi.
  replace ((-1 * t + 0) * (-1 * t + 0)) with (t * t) by ring. replace (-1 * t + 0) with (-1 * t) by ring. rewrite Rpow_mult_distr. ring.
Qed.

(** ** The total mass of the half line *)
Lemma phi_derive (x : R) : is_derive phi x (- x * phi x).
Proof. unfold phi. pose proof sqrt_2PI_pos. auto_derive; [auto|]. change (- (x * x) * / 2) with (- (x * x) / 2). field. lra. Qed.

Lemma Mk_step k x : Mk (S (S k)) x = (INR k + 1) * Mk k x - x ^ S k * phi x.
Proof.
  assert (D : forall t, is_derive (fun z => (INR k + 1) * Mk k z - z ^ S k * phi z) t (pk (S (S k)) t)).
  { intros t. assert (P : is_derive (fun z : R => z ^ S k) t (INR (S k) * t ^ k)).
    { assert (Q := is_derive_pow (fun x : R => x) (S k) t 1 (is_derive_id t)). cbn [pred] in Q. now rewrite Rmult_1_r in Q. }
    assert (D1 := is_derive_scal _ _ (INR k + 1) _ (Mk_derive k t)). assert (D2 := is_derive_mult _ _ _ _ _ P (phi_derive t) Rmult_comm).
    assert (D3 := is_derive_minus _ _ _ _ _ D1 D2). match type of D3 with is_derive _ _ ?v => replace (pk (S (S k)) t) with v; [exact D3|] end.
    unfold minus, plus, opp, scal, mult; simpl. unfold mult; simpl. unfold pk. rewrite S_INR || idtac.
    change (match k with 0%nat => 1 | S _ => INR k + 1 end) with (INR (S k)). rewrite S_INR. simpl. ring. }
  assert (H : is_RInt (pk (S (S k))) 0 x (minus ((INR k + 1) * Mk k x - x ^ S k * phi x) ((INR k + 1) * Mk k 0 - 0 ^ S k * phi 0))).
  { apply (is_RInt_derive (V := R_CompleteNormedModule) (fun z => (INR k + 1) * Mk k z - z ^ S k * phi z)); intros; [apply D|apply pk_cont]. }
  unfold Mk at 1. rewrite (is_RInt_unique _ _ _ _ H). unfold minus, plus, opp; simpl. rewrite Mk_0. ring.
Qed.

Lemma Mk_one x : Mk 1 x = phi 0 - phi x.
Proof.
  assert (H : is_RInt (pk 1) 0 x (minus (- phi x) (- phi 0))).
  { apply (is_RInt_derive (V := R_CompleteNormedModule) (fun z => - phi z)); intros t _; [|apply pk_cont].
    assert (D := is_derive_opp _ _ _ (phi_derive t)). match type of D with is_derive _ _ ?v => replace (pk 1 t) with v; [exact D|] end.
    unfold opp, pk; simpl. ring. }
  unfold Mk. rewrite (is_RInt_unique _ _ _ _ H). unfold minus, plus, opp; simpl. ring.
Qed.

Definition to_infty (f : R -> R) (l : R) : Prop := filterlim f (Rbar_locally p_infty) (locally l).

Lemma to_infty_eps f l : (forall eps, 0 < eps -> exists M, forall x, M <= x -> Rabs (f x - l) < eps) -> to_infty f l.
Proof.
  intros H P [eps HP]. destruct (H eps (cond_pos eps)) as [M HM]. exists M. intros x Hx. apply HP. apply HM. lra.
Qed.

Lemma Mk_zero_limit : to_infty (Mk 0) (/ 2).
Proof.
  apply to_infty_eps. intros eps He. destruct (PhiR_limits (eps / 2)) as [M HM]; [lra|]. exists M. intros x Hx.
  destruct (HM x Hx) as [H _]. destruct (PhiR_range x) as [_ H2].
  assert (E : Mk 0 x = PhiR x - / 2).
  { assert (Q : Mk 0 x = RInt phi 0 x) by (apply RInt_ext; intros t _; unfold pk; simpl; change (1 * phi t = phi t); ring).
    unfold PhiR. rewrite Q. lra. }
  rewrite E. apply Rabs_def1; lra.
Qed.

Lemma phi_gdens x : phi x = gdens 0 1 x.
Proof. unfold gdens. replace ((x - 0) / 1) with x by field. field. Qed.

Lemma pk_limit k : to_infty (fun x => x ^ k * phi x) 0.
Proof.
  eapply filterlim_ext; [|exact (gdens_lim_p 0 1 0 k ltac:(lra))]. intros x. simpl. rewrite phi_gdens, Rminus_0_r. reflexivity.
Qed.

Lemma Mk_limit k : to_infty (Mk k) (gconst k / 2).
Proof.
  assert (Hp := sqrt_PI_pos). revert k. apply two_step.
  - replace (gconst 0 / 2) with (/ 2); [exact Mk_zero_limit|]. unfold gconst. rewrite two_pow. simpl. field. lra.
  - eapply filterlim_ext; [intros x; symmetry; apply Mk_one|].
    replace (gconst 1 / 2) with (plus (phi 0) (opp 0)).
    + apply (filterlim_comp_2 (G := locally (phi 0)) (H := locally (opp 0))) with (f := fun _ => phi 0) (g := fun x => opp (phi x)) (h := plus).
      * apply filterlim_const.
      * apply (filterlim_comp _ _ _ phi opp _ (locally 0)); [|apply (filterlim_opp (V := R_NormedModule))].
        eapply filterlim_ext; [|exact (pk_limit 0)]. intros x. simpl. ring.
      * apply (filterlim_plus (V := R_NormedModule)).
    + unfold plus, opp; simpl. unfold gconst. rewrite two_pow. unfold phi. replace (- (0 * 0) / 2) with 0 by field. rewrite exp_0.
      rewrite sqrt_mult by (pose proof PI_RGT_0; lra). assert (H2 : 0 < sqrt 2) by (apply sqrt_lt_R0; lra).
      assert (Hs2 : sqrt 2 * sqrt 2 = 2) by (apply sqrt_sqrt; lra). simpl. rewrite Rmult_1_r. rewrite Ropp_0, Rplus_0_r.
      apply Rmult_eq_reg_r with (sqrt 2 * sqrt PI); [|nra]. field_simplify; [|lra|lra]. rewrite <- Rsqr_pow2. unfold Rsqr. rewrite Hs2. field.
  - intros k IH. eapply filterlim_ext; [intros x; symmetry; apply Mk_step|].
    replace (gconst (S (S k)) / 2) with (plus ((INR k + 1) * (gconst k / 2)) (opp 0)).
    + apply (filterlim_comp_2 (G := locally ((INR k + 1) * (gconst k / 2))) (H := locally (opp 0))) with (f := fun x => (INR k + 1) * Mk k x) (g := fun x => opp (x ^ S k * phi x)) (h := plus).
      * apply (filterlim_comp _ _ _ (Mk k) (fun y => (INR k + 1) * y) _ (locally (gconst k / 2))); [exact IH|].
        exact (filterlim_scal_r (V := R_NormedModule) (INR k + 1) (gconst k / 2)).
      * apply (filterlim_comp _ _ _ (fun x => x ^ S k * phi x) opp _ (locally 0)); [apply pk_limit|apply (filterlim_opp (V := R_NormedModule))].
      * apply (filterlim_plus (V := R_NormedModule)).
    + unfold plus, opp; simpl. unfold gconst. rewrite !two_pow. cbn [gamma_half].
      assert (Hs2 : sqrt 2 * sqrt 2 = 2) by (apply sqrt_sqrt; lra).
      replace (sqrt 2 ^ S (S k)) with (2 * sqrt 2 ^ k) by (simpl; rewrite <- Hs2 at 1; ring). field. lra.
Qed.

(** ** The library functions are what their names say *)
Definition gamma_kernel (k : nat) (t : R) : R := Rpower t ((INR k + 1) / 2 - 1) * exp (- t).

Lemma gkern_primitive k (t : R) : 0 < t -> is_derive (fun y => RInt (gkern k) 0 (sqrt y)) t (gamma_kernel k t).
Proof.
  intros Ht. assert (Hs : 0 < sqrt t) by now apply sqrt_lt_R0.
  assert (D1 : is_derive (fun w => RInt (gkern k) 0 w) (sqrt t) (gkern k (sqrt t))).
  { apply (is_derive_RInt (V := R_NormedModule) (gkern k) _ 0); [|apply gkern_cont].
    apply filter_forall. intros b. apply (RInt_correct (V := R_CompleteNormedModule)), gkern_ex. }
  assert (D2 : is_derive sqrt t (/ (2 * sqrt t))) by (apply is_derive_Reals, derivable_pt_lim_sqrt; exact Ht).
  assert (D := is_derive_comp (fun w => RInt (gkern k) 0 w) sqrt t _ _ D1 D2).
  match type of D with is_derive _ _ ?v => replace (gamma_kernel k t) with v; [exact D|] end.
  unfold scal; simpl; unfold mult; simpl. unfold gkern, gamma_kernel. rewrite (sqrt_sqrt t) by lra.
  assert (E : Rpower t ((INR k + 1) / 2 - 1) = sqrt t ^ k * / sqrt t).
  { replace ((INR k + 1) / 2 - 1) with (/ 2 * INR k + - / 2) by field.
    rewrite Rpower_plus, Rpower_Ropp, <- Rpower_mult, Rpower_sqrt by lra. now rewrite Rpower_pow. }
  rewrite E. field. lra.
Qed.

Lemma gamma_kernel_cont k (t : R) : 0 < t -> continuous (gamma_kernel k) t.
Proof.
  intros Ht. apply (ex_derive_continuous (gamma_kernel k)). unfold gamma_kernel, Rpower. auto_derive. exact Ht.
Qed.

Lemma primitive_at_zero k : filterlim (fun y => RInt (gkern k) 0 (sqrt y)) (at_right 0) (locally 0).
Proof.
  assert (C : continuous (fun w => RInt (gkern k) 0 w) 0).
  { apply (ex_derive_continuous (fun w => RInt (gkern k) 0 w)). exists (gkern k 0).
    apply (is_derive_RInt (V := R_NormedModule) (gkern k) _ 0); [|apply gkern_cont].
    apply filter_forall. intros b. apply (RInt_correct (V := R_CompleteNormedModule)), gkern_ex. }
  unfold continuous in C. rewrite RInt_point in C. apply (filterlim_comp _ _ _ sqrt (fun w => RInt (gkern k) 0 w) _ (locally 0)); [|exact C].
  assert (Q := continuous_sqrt 0). unfold continuous in Q. rewrite sqrt_0 in Q.
  intros P HP. apply (filter_le_within (F := locally 0) (fun u => 0 < u)). exact (Q P HP).
Qed.

Lemma kernel_gen k (Fb : (R -> Prop) -> Prop) {FF : ProperFilter' Fb} {FF' : Filter Fb} l : Fb (fun b => 0 < b) ->
  filterlim (fun y => RInt (gkern k) 0 (sqrt y)) Fb (locally l) -> is_RInt_gen (gamma_kernel k) (at_right 0) Fb l.
Proof.
  intros HF HL. set (F := fun y => RInt (gkern k) 0 (sqrt y)).
  replace l with (l - 0) by ring.
  assert (P : filter_prod (at_right 0) Fb (fun ab => 0 < fst ab /\ 0 < snd ab)).
  { apply (Filter_prod _ _ _ (fun a => 0 < a) (fun b => 0 < b)); [|exact HF|intros; split; auto].
    exists (mkposreal 1 Rlt_0_1). intros y _ Hy. exact Hy. }
  assert (Q : forall a b x, 0 < a -> 0 < b -> Rmin a b <= x -> 0 < x) by (intros a b x Ha Hb; unfold Rmin; destruct (Rle_dec a b); lra).
  apply (is_RInt_gen_ext (Derive F)).
  - eapply filter_imp; [|exact P]. intros [a b] [Ha Hb] x [Hx _]. simpl in *. apply is_derive_unique, gkern_primitive. apply (Q a b); lra.
  - apply (is_RInt_gen_Derive (Fa := at_right 0) (Fb := Fb)); auto using primitive_at_zero.
    + eapply filter_imp; [|exact P]. intros [a b] [Ha Hb] x [Hx _]. simpl in *. exists (gamma_kernel k x). apply gkern_primitive. apply (Q a b); auto.
    + eapply filter_imp; [|exact P]. intros [a b] [Ha Hb] x [Hx _]. simpl in *. assert (Hx0 : 0 < x) by (apply (Q a b); auto).
      apply (continuous_ext_loc (Derive F) (gamma_kernel k) x); [|now apply gamma_kernel_cont].
      exists (mkposreal x Hx0). intros y Hy. symmetry. apply is_derive_unique, gkern_primitive.
      apply Rabs_def2 in Hy. unfold minus, plus, opp in Hy; simpl in Hy. lra.
    + exact (primitive_at_zero k).
Qed.

(** [gamma_cdf k y] is the integral of t^(a-1) e^-t from 0 to [y] divided by [gamma_half k], for a = (k+1)/2. *)
Theorem gamma_cdf_integral k y : 0 < y -> is_RInt_gen (gamma_kernel k) (at_right 0) (at_point y) (gamma_half k * gamma_cdf k y).
Proof.
  intros Hy. apply kernel_gen; try typeclasses eauto.
  - exact Hy.
  - intros P HP. unfold gamma_cdf in HP. destruct (Rle_dec y 0) as [H|H]; [lra|].
    assert (E : gamma_half k * (RInt (gkern k) 0 (sqrt y) / gamma_half k) = RInt (gkern k) 0 (sqrt y)).
    { pose proof (gamma_half_pos k). change (gamma_half k * ((RInt (gkern k) 0 (sqrt y) : R) / gamma_half k) = RInt (gkern k) 0 (sqrt y)). field. lra. }
    rewrite E in HP. apply locally_singleton in HP. exact HP.
Qed.

(** [gamma_half k] is the gamma function at (k+1)/2. *)
Theorem gamma_integral k : is_RInt_gen (gamma_kernel k) (at_right 0) (Rbar_locally p_infty) (gamma_half k).
Proof.
  apply kernel_gen; try typeclasses eauto.
  - exists 0. auto.
  - assert (Hp := sqrt_PI_pos). assert (Hg := gamma_half_pos k). assert (H2 : 0 < sqrt 2) by (apply sqrt_lt_R0; lra).
    assert (Hk : sqrt 2 ^ k > 0) by (apply pow_lt; exact H2).
    apply to_infty_eps. intros eps He. set (e2 := eps * (sqrt 2 ^ k / sqrt PI) / 2).
    assert (He2 : 0 < e2). { unfold e2. assert (0 < sqrt 2 ^ k / sqrt PI) by (apply Rdiv_lt_0_compat; auto). nra. }
    assert (L := Mk_limit k). destruct (proj1 (filterlim_locally _ _) L (mkposreal e2 He2)) as [M HM].
    set (N := Rmax 1 (M + 1)). assert (N1 : 1 <= N) by apply Rmax_l. assert (N2 : M + 1 <= N) by apply Rmax_r.
    exists (N * N). intros x Hx.
    assert (Hsx : N <= sqrt x). { apply Rsqr_incr_0; [|lra|apply sqrt_pos]. unfold Rsqr. rewrite sqrt_sqrt by nra. exact Hx. }
    assert (Hs2 : 1 <= sqrt 2) by (rewrite <- sqrt_1; apply sqrt_le_1; lra).
    assert (Hz : M < sqrt x * sqrt 2) by nra.
    specialize (HM _ Hz). change (Rabs (Mk k (sqrt x * sqrt 2) - gconst k / 2) < e2) in HM.
    rewrite <- gkern_Mk in HM by nra. replace (sqrt x * sqrt 2 / sqrt 2) with (sqrt x) in HM by (field; lra).
    unfold gconst in HM. rewrite two_pow in HM. set (J := RInt (gkern k) 0 (sqrt x) : R) in *.
    replace (J * (sqrt 2 ^ k / sqrt PI) / 2 - sqrt 2 ^ k * gamma_half k / sqrt PI / 2) with ((J - gamma_half k) * (sqrt 2 ^ k / sqrt PI / 2)) in HM by (field; lra).
    assert (Hc : 0 < sqrt 2 ^ k / sqrt PI / 2) by (apply Rdiv_lt_0_compat; [apply Rdiv_lt_0_compat; auto|lra]).
    rewrite Rabs_mult, (Rabs_right (sqrt 2 ^ k / sqrt PI / 2)) in HM by lra. unfold e2 in HM.
    replace (eps * (sqrt 2 ^ k / sqrt PI) / 2) with (eps * (sqrt 2 ^ k / sqrt PI / 2)) in HM by (unfold Rdiv; ring).
    now apply Rmult_lt_reg_r in HM.
Qed.

Print Assumptions gamma_cdf_integral.
Print Assumptions gamma_integral.
