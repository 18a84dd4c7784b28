(** * GaussMoment: the numbers computed by GaussianDistribution.moment are integrals against the normal density *)
From Coq Require Import List Reals Lra Lia.
From Coquelicot Require Import Coquelicot.
From Verif Require Import Num Interval GaussInt Dist DistFacts MomentFacts LeafCond.
Import ListNotations.
Local Open Scope R_scope.

(** The normal density with location [mu] and scale [s]. *)
Definition gdens (mu s x : R) : R := phi ((x - mu) / s) / s.

Lemma gdens_density v mu s x : 0 < s -> density (DGauss v mu s) x = gdens mu s x.
Proof.
  intros Hs. unfold density. cbn [ll1]. unfold gauss_logpdf. destruct (Rlt_dec 0 s); [|lra].
  rewrite nexp_nlog; [reflexivity|]. simpl. left. apply Rdiv_lt_0_compat; auto using phi_pos.
Qed.

Lemma gdens_derive mu s x : 0 < s -> is_derive (gdens mu s) x (- (x - mu) / (s * s) * gdens mu s x).
Proof.
  intros Hs. unfold gdens, phi. assert (H2 := sqrt_2PI_pos). auto_derive; [lra|].
  replace (- ((x + - mu) * / s * ((x + - mu) * / s)) * / 2) with (- ((x - mu) / s * ((x - mu) / s)) / 2) by (field; lra).
  field. lra.
Qed.

(** ** Decay *)
Lemma exp_ge_1 y : 1 + y <= exp y.
Proof. apply exp_ineq1_le. Qed.

Lemma exp_INR_mult k y : exp (INR k * y) = exp y ^ k.
Proof. induction k as [|k IH]; [simpl; now rewrite Rmult_0_l, exp_0|]. rewrite S_INR, Rmult_plus_distr_r, exp_plus, IH, Rmult_1_l. simpl. ring. Qed.

(** [|z| exp(-z^2/(2k))] is at most [2k/|z|]. *)
Lemma pow_exp_bound k z : (0 < k)%nat -> z <> 0 -> Rabs (z ^ k * exp (- (z * z) / 2)) <= (2 * INR k / Rabs z) ^ k.
Proof.
  intros Hk Hz. assert (Hkr : 0 < INR k) by now apply lt_0_INR. assert (Ha : 0 < Rabs z) by now apply Rabs_pos_lt.
  replace (exp (- (z * z) / 2)) with (exp (- (z * z) / (2 * INR k)) ^ k).
  - rewrite <- Rpow_mult_distr, <- RPow_abs. apply pow_incr. split; [apply Rabs_pos|].
    rewrite Rabs_mult, (Rabs_right (exp _)) by (left; apply exp_pos).
    assert (E : exp (- (z * z) / (2 * INR k)) = / exp (z * z / (2 * INR k))).
    { rewrite <- exp_Ropp. f_equal. field. lra. }
    rewrite E. assert (G := exp_ge_1 (z * z / (2 * INR k))).
    assert (Hzz : z * z = Rabs z * Rabs z). { rewrite <- Rabs_mult. symmetry. apply Rabs_right. apply Rle_ge, Rle_0_sqr. }
    rewrite Hzz in *. set (a := Rabs z) in *.
    assert (P : 0 < a * a / (2 * INR k)) by (apply Rdiv_lt_0_compat; nra).
    apply Rle_trans with (a * / (a * a / (2 * INR k))).
    + apply Rmult_le_compat_l; [lra|]. apply Rinv_le_contravar; lra.
    + right. field. split; lra.
  - rewrite <- exp_INR_mult. f_equal. field. lra.
Qed.

Lemma decay k eps : 0 < eps -> exists M, 0 < M /\ forall z, M <= Rabs z -> Rabs (z ^ k * exp (- (z * z) / 2)) < eps.
Proof.
  intros He. destruct k as [|k].
  - (* k = 0: bound by k = 2 *)
    exists (Rmax 1 (16 / eps + 1)). split; [assert (1 <= Rmax 1 (16 / eps + 1)) by apply Rmax_l; lra|]. intros z Hz.
    assert (H1 : 1 <= Rabs z) by (eapply Rle_trans; [apply Rmax_l|exact Hz]).
    assert (H2 : 16 / eps + 1 <= Rabs z) by (eapply Rle_trans; [apply Rmax_r|exact Hz]).
    assert (Hz0 : z <> 0) by (intros ->; rewrite Rabs_R0 in H1; lra).
    assert (B := pow_exp_bound 1 z ltac:(lia) Hz0). simpl in B. simpl. rewrite Rmult_1_l. rewrite !Rmult_1_r in B.
    rewrite Rabs_mult in B. assert (N := Rabs_pos (exp (- (z * z) / 2))).
    assert (P : 0 < 16 / eps) by (apply Rdiv_lt_0_compat; lra).
    apply Rle_lt_trans with (2 / Rabs z); [nra|].
    apply Rlt_le_trans with (2 / (16 / eps)).
    + apply Rmult_lt_compat_l; [lra|]. apply Rinv_lt_contravar; [nra|lra].
    + replace (2 / (16 / eps)) with (eps / 8) by (field; lra). lra.
  - set (K := 2 * INR (S k)). assert (HK : 0 < K) by (unfold K; assert (0 < INR (S k)) by (apply lt_0_INR; lia); lra).
    exists (Rmax (K) (K / eps + 1) + 1). split; [assert (K <= Rmax K (K / eps + 1)) by apply Rmax_l; lra|]. intros z Hz.
    assert (H1 : K < Rabs z) by (assert (K <= Rmax K (K / eps + 1)) by apply Rmax_l; lra).
    assert (H2 : K / eps < Rabs z) by (assert (K / eps + 1 <= Rmax K (K / eps + 1)) by apply Rmax_r; lra).
    assert (Hz0 : z <> 0) by (intros ->; rewrite Rabs_R0 in H1; lra).
    eapply Rle_lt_trans; [apply pow_exp_bound; [lia|exact Hz0]|]. fold K.
    assert (Hq : 0 <= K / Rabs z < 1).
    { split; [apply Rmult_le_pos; [lra|left; apply Rinv_0_lt_compat; lra]|]. apply Rmult_lt_reg_r with (Rabs z); [lra|].
      replace (K / Rabs z * Rabs z) with K by (field; lra). lra. }
    apply Rle_lt_trans with (K / Rabs z).
    + simpl. assert ((K / Rabs z) ^ k <= 1). { rewrite <- (pow1 k). apply pow_incr. lra. }
      assert (0 <= (K / Rabs z) ^ k) by (apply pow_le; lra). nra.
    + apply Rmult_lt_reg_r with (Rabs z); [lra|]. replace (K / Rabs z * Rabs z) with K by (field; lra).
      assert (K / eps * eps < Rabs z * eps) by (apply Rmult_lt_compat_r; lra).
      replace (K / eps * eps) with K in H by (field; lra). lra.
Qed.

(** Polynomials times the density vanish at infinity. *)
Lemma gdens_decay mu s c n eps : 0 < s -> 0 < eps ->
  exists M, 0 < M /\ forall x, M <= Rabs x -> Rabs ((x - c) ^ n * gdens mu s x) < eps.
Proof.
  intros Hs He. set (C := s * sqrt (2 * PI)). assert (HC : 0 < C) by (apply Rmult_lt_0_compat; auto using sqrt_2PI_pos).
  assert (H2n : 0 < 2 ^ n) by (apply pow_lt; lra). assert (Hsn : 0 < s ^ n) by now apply pow_lt.
  set (e2 := eps * C / (2 ^ n * s ^ n)). assert (He2 : 0 < e2) by (apply Rdiv_lt_0_compat; nra).
  destruct (decay n e2 He2) as (M & HM & H).
  (* |x| large: |x - c| <= 2 |x - mu| and |x - mu|/s >= M *)
  exists (Rabs mu + s * M + Rabs c + Rabs mu + Rabs mu + 1). split.
  { assert (H1 := Rabs_pos mu). assert (H3 := Rabs_pos c). assert (0 < s * M) by (apply Rmult_lt_0_compat; auto). lra. }
  intros x Hx. set (z := (x - mu) / s).
  assert (Hzs : x - mu = s * z) by (unfold z; field; lra).
  assert (T1 : Rabs x <= Rabs (x - mu) + Rabs mu). { replace x with ((x - mu) + mu) at 1 by ring. apply Rabs_triang. }
  assert (T2 : Rabs (x - c) <= Rabs (x - mu) + (Rabs mu + Rabs c)).
  { replace (x - c) with ((x - mu) + (mu + - c)) by ring. eapply Rle_trans; [apply Rabs_triang|]. apply Rplus_le_compat_l.
    eapply Rle_trans; [apply Rabs_triang|]. rewrite Rabs_Ropp. lra. }
  assert (P1 := Rabs_pos mu). assert (P2 := Rabs_pos c).
  assert (Hb : Rabs (x - c) <= 2 * Rabs (x - mu)) by (assert (0 < s * M) by (apply Rmult_lt_0_compat; auto); lra).
  assert (Hz : M <= Rabs z).
  { unfold z. unfold Rdiv. rewrite Rabs_mult, (Rabs_right (/ s)) by (left; now apply Rinv_0_lt_compat).
    apply Rmult_le_reg_r with s; auto. replace (Rabs (x - mu) * / s * s) with (Rabs (x - mu)) by (field; lra). lra. }
  specialize (H z Hz).
  assert (E : gdens mu s x = exp (- (z * z) / 2) / C). { unfold gdens, phi, C. fold z. field. assert (H2 := sqrt_2PI_pos). lra. }
  rewrite E, Rabs_mult. unfold Rdiv. rewrite Rabs_mult, (Rabs_right (/ C)) by (left; now apply Rinv_0_lt_compat).
  rewrite Rabs_mult in H. set (ex := Rabs (exp (- (z * z) / 2))) in *. assert (Hex : 0 <= ex) by apply Rabs_pos.
  assert (Hpow : Rabs ((x - c) ^ n) <= 2 ^ n * s ^ n * Rabs (z ^ n)).
  { rewrite <- !RPow_abs, <- !Rpow_mult_distr. apply pow_incr. split; [apply Rabs_pos|].
    rewrite Hzs, Rabs_mult, (Rabs_right s) in Hb by lra. lra. }
  apply Rle_lt_trans with (2 ^ n * s ^ n / C * (Rabs (z ^ n) * ex)).
  - assert (0 <= ex * / C) by (apply Rmult_le_pos; [auto|left; now apply Rinv_0_lt_compat]).
    apply Rle_trans with (2 ^ n * s ^ n * Rabs (z ^ n) * (ex * / C)); [apply Rmult_le_compat_r; auto|right; field; lra].
  - assert (HP : 0 < 2 ^ n * s ^ n / C) by (apply Rdiv_lt_0_compat; nra).
    apply Rlt_le_trans with (2 ^ n * s ^ n / C * e2); [apply Rmult_lt_compat_l; auto|]. right. unfold e2. field. repeat split; lra.
Qed.

Lemma gdens_lim_p mu s c n : 0 < s -> filterlim (fun x => (x - c) ^ n * gdens mu s x) (Rbar_locally p_infty) (locally 0).
Proof.
  intros Hs. apply (is_lim_spec _ p_infty 0). intros eps. destruct (gdens_decay mu s c n eps Hs (cond_pos eps)) as (M & HM & H).
  exists M. intros x Hx. rewrite Rminus_0_r. apply H. rewrite Rabs_right; lra.
Qed.

Lemma gdens_lim_m mu s c n : 0 < s -> filterlim (fun x => (x - c) ^ n * gdens mu s x) (Rbar_locally m_infty) (locally 0).
Proof.
  intros Hs. apply (is_lim_spec _ m_infty 0). intros eps. destruct (gdens_decay mu s c n eps Hs (cond_pos eps)) as (M & HM & H).
  exists (- M). intros x Hx. rewrite Rminus_0_r. apply H. rewrite Rabs_left; lra.
Qed.

(** ** Integrals over the real line *)
Definition line_integral (f : R -> R) (m : R) : Prop := is_RInt_gen f (Rbar_locally m_infty) (Rbar_locally p_infty) m.

Lemma line_derive (F f : R -> R) la lb : (forall x, is_derive F x (f x)) -> (forall x, continuous f x) ->
  filterlim F (Rbar_locally m_infty) (locally la) -> filterlim F (Rbar_locally p_infty) (locally lb) -> line_integral f (lb - la).
Proof.
  intros Hd Hc Ha Hb. unfold line_integral.
  assert (E : forall x, Derive F x = f x) by (intros; now apply is_derive_unique).
  apply (is_RInt_gen_ext (Derive F)).
  - apply filter_forall. intros ab x _. apply E.
  - apply (is_RInt_gen_Derive (Fa := Rbar_locally m_infty) (Fb := Rbar_locally p_infty)); auto.
    + apply filter_forall. intros ab x _. exists (f x). apply Hd.
    + apply filter_forall. intros ab x _. apply continuous_ext with f; auto.
Qed.

Lemma gdens_cont mu s x : 0 < s -> continuous (gdens mu s) x.
Proof. intros Hs. apply (ex_derive_continuous (gdens mu s)). eexists. now apply gdens_derive. Qed.

Lemma pow_gdens_cont mu s c n x : 0 < s -> continuous (fun x => (x - c) ^ n * gdens mu s x) x.
Proof.
  intros Hs. apply (continuous_mult (fun x => (x - c) ^ n) (gdens mu s)); [|now apply gdens_cont].
  apply (ex_derive_continuous (fun x => (x - c) ^ n)). auto_derive. auto.
Qed.

(** The derivative of a constant multiple of a vanishing function integrates to zero. *)
Lemma by_parts mu s c n : 0 < s ->
  line_integral (fun x => (x - c) ^ (S n) * (x - mu) * gdens mu s x - INR (S n) * (s * s) * ((x - c) ^ n * gdens mu s x)) 0.
Proof.
  intros Hs. replace 0 with (0 - 0) by ring. apply (line_derive (fun x => - (s * s) * ((x - c) ^ (S n) * gdens mu s x))).
  - intros x. assert (D := gdens_derive mu s x Hs). assert (Hp : is_derive (fun x : R => (x - c) ^ S n) x (INR (S n) * (x - c) ^ n)).
    { assert (Hid : is_derive (fun x : R => x - c) x 1) by (auto_derive; auto; ring).
      assert (Q := is_derive_pow (fun x : R => x - c) (S n) x 1 Hid). cbn [pred] in Q. now rewrite Rmult_1_r in Q. }
    assert (Dm := is_derive_mult _ _ _ _ _ Hp D Rmult_comm).
    assert (Ds := is_derive_scal _ _ (- (s * s)) _ Dm).
    match type of Ds with is_derive _ _ ?v => replace (_ - _) with v; [exact Ds|] end.
    unfold mult, plus, scal; simpl. unfold mult; simpl. field. lra.
  - intros x. apply (continuous_minus (fun x => (x - c) ^ (S n) * (x - mu) * gdens mu s x) (fun x => INR (S n) * (s * s) * ((x - c) ^ n * gdens mu s x))).
    + apply (continuous_mult (fun x => (x - c) ^ S n * (x - mu)) (gdens mu s)); [|now apply gdens_cont].
      apply (ex_derive_continuous (fun x => (x - c) ^ S n * (x - mu))). auto_derive. auto.
    + apply (continuous_scal_r (INR (S n) * (s * s)) (fun x => (x - c) ^ n * gdens mu s x)). now apply pow_gdens_cont.
  - assert (L := gdens_lim_m mu s c (S n) Hs). apply (filterlim_comp _ _ _ _ (fun y => - (s * s) * y) _ _ _ L).
    assert (Q := filterlim_scal_r (V := R_NormedModule) (- (s * s)) 0).
    unfold scal in Q; simpl in Q; unfold mult in Q; simpl in Q. rewrite Rmult_0_r in Q. exact Q.
  - assert (L := gdens_lim_p mu s c (S n) Hs). apply (filterlim_comp _ _ _ _ (fun y => - (s * s) * y) _ _ _ L).
    assert (Q := filterlim_scal_r (V := R_NormedModule) (- (s * s)) 0).
    unfold scal in Q; simpl in Q; unfold mult in Q; simpl in Q. rewrite Rmult_0_r in Q. exact Q.
Qed.

(** Congruence, sums and multiples of line integrals. *)
Lemma line_ext f g m : (forall x, f x = g x) -> line_integral f m -> line_integral g m.
Proof.
  intros E H. refine (is_RInt_gen_ext (V := R_NormedModule) (Fa := Rbar_locally m_infty) (Fb := Rbar_locally p_infty) f g m _ H).
  apply filter_forall. intros ab x _. apply E.
Qed.

Lemma line_plus f g a b : line_integral f a -> line_integral g b -> line_integral (fun x => f x + g x) (a + b).
Proof. intros Hf Hg. exact (is_RInt_gen_plus (V := R_NormedModule) (Fa := Rbar_locally m_infty) (Fb := Rbar_locally p_infty) f g a b Hf Hg). Qed.

Lemma line_scal k f a : line_integral f a -> line_integral (fun x => k * f x) (k * a).
Proof. intros Hf. exact (is_RInt_gen_scal (V := R_NormedModule) (Fa := Rbar_locally m_infty) (Fb := Rbar_locally p_infty) f k a Hf). Qed.

(** The density integrates to one. *)
Lemma gdens_total mu s : 0 < s -> line_integral (gdens mu s) 1.
Proof.
  intros Hs.
  replace 1 with (1 - 0) by ring. apply (line_derive (fun x => PhiR ((x - mu) / s))).
  - intros x. assert (D := PhiR_derive ((x - mu) / s)).
    assert (Hg : is_derive (fun x : R => (x - mu) / s) x (/ s)) by (auto_derive; auto; field; lra).
    assert (C := is_derive_comp PhiR (fun x : R => (x - mu) / s) x _ _ D Hg).
    unfold gdens. unfold scal in C; simpl in C; unfold mult in C; simpl in C.
    replace (phi ((x - mu) / s) / s) with (/ s * phi ((x - mu) / s)) by (field; lra). exact C.
  - intros x. now apply gdens_cont.
  - apply (is_lim_spec _ m_infty 0). intros eps. destruct (PhiR_limits (eps / 2)) as [M H]; [destruct eps; simpl; lra|].
    exists (s * (- M) + mu). intros x Hx.
    assert (Hz : (x - mu) / s < - M) by (apply Rmult_lt_reg_r with s; auto; unfold Rdiv; rewrite Rmult_assoc, Rinv_l by lra; lra).
    destruct (H (- ((x - mu) / s)) ltac:(lra)) as [_ B]. rewrite Ropp_involutive in B.
    assert (G := PhiR_range ((x - mu) / s)). assert (E := cond_pos eps). rewrite Rabs_right; lra.
  - apply (is_lim_spec _ p_infty 1). intros eps. destruct (PhiR_limits (eps / 2)) as [M H]; [destruct eps; simpl; lra|].
    exists (s * M + mu). intros x Hx.
    assert (Hz : M < (x - mu) / s) by (apply Rmult_lt_reg_r with s; auto; unfold Rdiv; rewrite Rmult_assoc, Rinv_l by lra; lra).
    destruct (H ((x - mu) / s) ltac:(lra)) as [B _].
    assert (G := PhiR_range ((x - mu) / s)). assert (E := cond_pos eps). rewrite Rabs_left1; lra.
Qed.

(** First moment: the derivative of [- s^2 f] is [(x - mu) f]. *)
Lemma gdens_first mu s : 0 < s -> line_integral (fun x => (x - mu) * gdens mu s x) 0.
Proof.
  intros Hs. replace 0 with (- (s * s) * 0 - - (s * s) * 0) by ring.
  assert (T : forall F, Filter F -> filterlim (gdens mu s) F (locally 0) -> filterlim (fun x => - (s * s) * gdens mu s x) F (locally (- (s * s) * 0))).
  { intros F HF L. apply (filterlim_comp _ _ _ _ (fun y => - (s * s) * y) _ _ _ L).
    exact (filterlim_scal_r (V := R_NormedModule) (- (s * s)) 0). }
  apply (line_derive (fun x => - (s * s) * gdens mu s x)).
  - intros x. assert (Ds := is_derive_scal _ _ (- (s * s)) _ (gdens_derive mu s x Hs)).
    replace ((x - mu) * gdens mu s x) with (- (s * s) * (- (x - mu) / (s * s) * gdens mu s x)) by (field; lra). exact Ds.
  - intros x. apply (continuous_mult (fun x => x - mu) (gdens mu s)); [|now apply gdens_cont].
    apply (ex_derive_continuous (fun x => x - mu)). auto_derive. auto.
  - apply T; [typeclasses eauto|]. apply filterlim_ext with (fun x => (x - 0) ^ 0 * gdens mu s x); [intros; simpl; ring|]. now apply gdens_lim_m.
  - apply T; [typeclasses eauto|]. apply filterlim_ext with (fun x => (x - 0) ^ 0 * gdens mu s x); [intros; simpl; ring|]. now apply gdens_lim_p.
Qed.

(** All moments. *)
Theorem gauss_moment_integral mu s c : 0 < s -> forall n, line_integral (fun x => (x - c) ^ n * gdens mu s x) (gauss_moment mu s n c).
Proof.
  intros Hs. assert (G : forall n, line_integral (fun x => (x - c) ^ n * gdens mu s x) (gauss_moment mu s n c) /\
    line_integral (fun x => (x - c) ^ S n * gdens mu s x) (gauss_moment mu s (S n) c)); [|intros n; exact (proj1 (G n))].
  induction n as [|n [I0 I1]].
  - split.
    + replace (gauss_moment mu s 0 c) with 1 by (rewrite gauss_moment_binom; unfold binom; simpl; ring).
      apply line_ext with (gdens mu s); [intros; simpl; ring|now apply gdens_total].
    + replace (gauss_moment mu s 1 c) with (0 + (mu - c) * 1) by (rewrite gauss_moment_binom; unfold binom; simpl; ring).
      apply line_ext with (fun x => (x - mu) * gdens mu s x + (mu - c) * gdens mu s x); [intros; simpl; ring|].
      apply line_plus; [now apply gdens_first|apply line_scal; now apply gdens_total].
  - split; [exact I1|].
    replace (gauss_moment mu s (S (S n)) c) with (0 + ((mu - c) * gauss_moment mu s (S n) c + INR (S n) * (s * s) * gauss_moment mu s n c)).
    + apply line_ext with (fun x => ((x - c) ^ (S n) * (x - mu) * gdens mu s x - INR (S n) * (s * s) * ((x - c) ^ n * gdens mu s x)) +
        ((mu - c) * ((x - c) ^ S n * gdens mu s x) + INR (S n) * (s * s) * ((x - c) ^ n * gdens mu s x))); [intros; cbn [pow]; ring|].
      apply line_plus; [now apply by_parts|]. apply line_plus; now apply line_scal.
    + rewrite !gauss_moment_binom. rewrite (binom_S (mu - c) (S n)), binom_shift_amom. simpl (s ^ 2). ring.
Qed.

(** ** The interval density *)

(** A function that vanishes outside [a,b] has its line integral from its integral over [a,b]. *)
Lemma line_compact f a b m : (forall l h, l <= a -> b <= h -> is_RInt f l h m) -> line_integral f m.
Proof.
  intros H P HP. unfold line_integral. unfold filtermapi. apply Filter_prod with (fun x => x < a) (fun x => b < x).
  - exists a. auto.
  - exists b. auto.
  - intros x y Hx Hy. exists m. split; [apply H; simpl; lra|]. now apply locally_singleton.
Qed.
