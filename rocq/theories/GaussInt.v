(** * GaussInt: the standard normal density and distribution function

    Models scipy.stats.norm.pdf / norm.cdf (external), used by
    src/probabilistic_model/distributions/gaussian.py:37-41.  The density is exp(-t^2/2)/sqrt(2 pi) and the distribution
    function is its integral.  The classical Gaussian integral is proved here so that nothing about norm.cdf has
    to be assumed. *)
From Coq Require Import Reals Lra Lia.
From Coquelicot Require Import Coquelicot.
From Verif Require Import Num.
Local Open Scope R_scope.

Definition gf (t : R) : R := exp (- (t * t)).
Definition gI (x : R) : R := RInt gf 0 x.
Definition gh (x t : R) : R := exp (- (x * x) * (1 + t * t)) / (1 + t * t).
Definition gG (x : R) : R := RInt (gh x) 0 1.

Lemma gf_cont (x : R) : continuous gf x.
Proof. apply (ex_derive_continuous gf). unfold gf. auto_derive. auto. Qed.

Lemma gf_ex a b : ex_RInt gf a b.
Proof. apply (ex_RInt_continuous (V := R_CompleteNormedModule)). intros. apply gf_cont. Qed.

Lemma gI_derive (x : R) : is_derive gI x (gf x).
Proof.
  unfold gI. apply (is_derive_RInt (V := R_NormedModule) gf _ 0).
  - apply filter_forall. intros b. apply (RInt_correct (V := R_CompleteNormedModule)), gf_ex.
  - apply gf_cont.
Qed.

Lemma one_t2 t : 0 < 1 + t * t.
Proof. pose proof (Rle_0_sqr t). unfold Rsqr in H. lra. Qed.

Lemma gh_cont (x t : R) : continuous (gh x) t.
Proof.
  apply (ex_derive_continuous (gh x)). unfold gh. auto_derive. pose proof (one_t2 t). lra.
Qed.

Lemma gh_ex x a b : ex_RInt (gh x) a b.
Proof. apply (ex_RInt_continuous (V := R_CompleteNormedModule)). intros. apply gh_cont. Qed.

Lemma gh_derive (x t : R) : is_derive (fun u => gh u t) x (- 2 * x * exp (- (x * x) * (1 + t * t))).
Proof.
  unfold gh. auto_derive; auto. pose proof (one_t2 t). field. lra.
Qed.

Lemma gG_derive (x : R) : is_derive gG x (RInt (fun t => - 2 * x * exp (- (x * x) * (1 + t * t))) 0 1).
Proof.
  replace (RInt (fun t => - 2 * x * exp (- (x * x) * (1 + t * t))) 0 1)
    with (RInt (fun t => Derive (fun u => gh u t) x) 0 1).
  2:{ apply RInt_ext. intros t _. apply is_derive_unique, gh_derive. }
  unfold gG. apply (is_derive_RInt_param (fun u t => gh u t)).
  - apply filter_forall. intros y t _. eexists. apply gh_derive.
  - intros t _.
    apply continuity_2d_pt_ext with (f := fun u v => - 2 * u * exp (- (u * u) * (1 + v * v))).
    { intros u v. symmetry. apply is_derive_unique, gh_derive. }
    apply continuity_2d_pt_mult.
    + apply continuity_2d_pt_mult; [apply continuity_2d_pt_const|apply continuity_2d_pt_id1].
    + apply (continuity_1d_2d_pt_comp exp).
      * apply derivable_continuous_pt, derivable_pt_exp.
      * apply continuity_2d_pt_mult.
        -- apply continuity_2d_pt_opp, continuity_2d_pt_mult; apply continuity_2d_pt_id1.
        -- apply continuity_2d_pt_plus; [apply continuity_2d_pt_const|].
           apply continuity_2d_pt_mult; apply continuity_2d_pt_id2.
  - apply filter_forall. intros y. apply gh_ex.
Qed.

Lemma gG_derive' (x : R) : is_derive gG x (- 2 * exp (- (x * x)) * gI x).
Proof.
  replace (- 2 * exp (- (x * x)) * gI x) with (RInt (fun t => - 2 * x * exp (- (x * x) * (1 + t * t))) 0 1);
    [apply gG_derive|].
  unfold gI.
  pose proof (RInt_comp_lin (V := R_CompleteNormedModule) gf x 0 0 1) as H.
  replace (x * 0 + 0) with 0 in H by ring. replace (x * 1 + 0) with x in H by ring.
  rewrite <- (H (gf_ex 0 x)). 
  rewrite <- (RInt_scal (V := R_CompleteNormedModule) _ 0 1 (- 2 * exp (- (x * x)))).
  - apply RInt_ext. intros t _. unfold scal; simpl; unfold mult; simpl. unfold gf.
    replace (- (x * x) * (1 + t * t)) with (- (x * x) + - ((x * t + 0) * (x * t + 0))) by ring.
    rewrite exp_plus. ring.
  - apply (ex_RInt_continuous (V := R_CompleteNormedModule)). intros z _.
    apply (ex_derive_continuous (fun y => scal x (gf (x * y + 0)))).
    unfold scal; simpl; unfold mult; simpl. unfold gf. auto_derive. auto.
Qed.

Lemma sum_const (x : R) : gI x * gI x + gG x = gI 0 * gI 0 + gG 0.
Proof.
  set (S := fun x => gI x * gI x + gG x).
  assert (HS : forall t : R, is_derive S t 0).
  { intros t. unfold S.
    assert (H := is_derive_plus (fun x => gI x * gI x) gG t _ _
      (is_derive_mult gI gI t _ _ (gI_derive t) (gI_derive t) Rmult_comm) (gG_derive' t)).
    match type of H with is_derive _ _ ?d => replace 0 with d end; [exact H|].
    unfold plus, mult; simpl. unfold gf. ring. }
  change (S x = S 0).
  destruct (Rtotal_order x 0) as [H|[->|H]]; auto.
  - exact (eq_is_derive (V := R_NormedModule) S x 0 (fun t _ => HS t) H).
  - exact (eq_sym (eq_is_derive (V := R_NormedModule) S 0 x (fun t _ => HS t) H)).
Qed.

Lemma gI_0 : gI 0 = 0.
Proof. unfold gI. apply (RInt_point (V := R_CompleteNormedModule)). Qed.

Lemma gh_0 (t : R) : gh 0 t = / (1 + t ^ 2).
Proof.
  unfold gh. replace (- (0 * 0) * (1 + t * t)) with 0 by ring. rewrite exp_0.
  pose proof (one_t2 t). field. simpl. lra.
Qed.

Lemma gG_0 : gG 0 = PI / 4.
Proof.
  unfold gG. replace (PI / 4) with (minus (atan 1) (atan 0)).
  - apply is_RInt_unique.
    apply (is_RInt_ext (fun t => / (1 + t ^ 2))).
    + intros t _. symmetry. apply gh_0.
    + apply (is_RInt_derive atan (fun t => / (1 + t ^ 2))).
      * intros t _. apply is_derive_Reals. apply derivable_pt_lim_atan.
      * intros t _. apply (ex_derive_continuous (fun t => / (1 + t ^ 2))). auto_derive. pose proof (one_t2 t). simpl. lra.
  - unfold minus, plus, opp; simpl. rewrite atan_1, atan_0. lra.
Qed.

Lemma gG_pos x : 0 <= gG x.
Proof.
  unfold gG. replace 0 with (RInt (fun _ => 0) 0 1) at 1.
  - apply RInt_le; [lra| |apply gh_ex|].
    + apply (ex_RInt_const (V := R_CompleteNormedModule)).
    + intros t _. unfold gh. pose proof (one_t2 t). apply Rmult_le_pos; [left; apply exp_pos|left; now apply Rinv_0_lt_compat].
  - rewrite (RInt_const (V := R_CompleteNormedModule)). unfold scal; simpl; unfold mult; simpl. ring.
Qed.

Lemma gG_bound x : gG x <= exp (- (x * x)).
Proof.
  unfold gG. replace (exp (- (x * x))) with (RInt (fun _ => exp (- (x * x))) 0 1).
  - apply RInt_le; [lra|apply gh_ex| |].
    + apply (ex_RInt_const (V := R_CompleteNormedModule)).
    + intros t _. unfold gh. pose proof (one_t2 t).
      assert (Ht : 0 <= t * t) by (apply Rle_0_sqr). assert (Hx : 0 <= x * x) by (apply Rle_0_sqr).
      apply Rle_trans with (exp (- (x * x) * (1 + t * t))).
      * pose proof (exp_pos (- (x * x) * (1 + t * t))). apply Rmult_le_reg_r with (1 + t * t); auto.
        unfold Rdiv. rewrite Rmult_assoc, Rinv_l by lra. nra.
      * destruct (Req_dec (- (x * x) * (1 + t * t)) (- (x * x))) as [->|Hne]; [lra|].
        left. apply exp_increasing. nra.
  - rewrite (RInt_const (V := R_CompleteNormedModule)). unfold scal; simpl; unfold mult; simpl. ring.
Qed.

Lemma gI_sq x : gI x * gI x = PI / 4 - gG x.
Proof. pose proof (sum_const x). rewrite gI_0, gG_0 in H. lra. Qed.

Lemma gI_mono x y : x <= y -> gI x <= gI y.
Proof.
  intros H. unfold gI. replace (RInt gf 0 y) with (RInt gf 0 x + RInt gf x y).
  - assert (0 <= RInt gf x y); [|lra].
    replace 0 with (RInt (fun _ => 0) x y) at 1.
    + apply RInt_le; auto; [apply (ex_RInt_const (V := R_CompleteNormedModule))|apply gf_ex|].
      intros. unfold gf. left. apply exp_pos.
    + rewrite (RInt_const (V := R_CompleteNormedModule)). unfold scal; simpl; unfold mult; simpl. ring.
  - apply (RInt_Chasles (V := R_CompleteNormedModule)); apply gf_ex.
Qed.

Lemma gI_strict x y : x < y -> gI x < gI y.
Proof.
  intros H. unfold gI. replace (RInt gf 0 y) with (RInt gf 0 x + RInt gf x y).
  - assert (0 < RInt gf x y); [|lra]. apply RInt_gt_0; auto.
    + intros. unfold gf. apply exp_pos.
    + intros. apply gf_cont.
  - apply (RInt_Chasles (V := R_CompleteNormedModule)); apply gf_ex.
Qed.

Lemma sqrt_PI_pos : 0 < sqrt PI.
Proof. apply sqrt_lt_R0, PI_RGT_0. Qed.

Lemma gI_abs x : - (sqrt PI / 2) <= gI x <= sqrt PI / 2.
Proof.
  pose proof (gI_sq x) as H. pose proof (gG_pos x). pose proof sqrt_PI_pos.
  assert (Hs : sqrt PI * sqrt PI = PI) by (apply sqrt_sqrt; left; apply PI_RGT_0).
  split; nra.
Qed.

(** [gI x] tends to [sqrt PI / 2]: the Gaussian integral. *)
Lemma gI_limit_pos eps : 0 < eps -> exists M, 0 < M /\ forall x, M <= x -> sqrt PI / 2 - eps <= gI x.
Proof.
  intros He. pose proof sqrt_PI_pos as Hp.
  assert (Hs : sqrt PI * sqrt PI = PI) by (apply sqrt_sqrt; left; apply PI_RGT_0).
  set (d := Rmin eps (sqrt PI / 2)). assert (Hd : 0 < d) by (unfold d; apply Rmin_glb_lt; lra).
  assert (Hd1 : d <= eps) by apply Rmin_l. assert (Hd2 : d <= sqrt PI / 2) by apply Rmin_r.
  set (c := d * (sqrt PI / 2)). assert (Hc : 0 < c) by (unfold c; nra).
  exists (1 + / c). assert (Hic : 0 < / c) by now apply Rinv_0_lt_compat. split; [lra|].
  intros x Hx.
  assert (Hg : gG x < c).
  { apply Rle_lt_trans with (exp (- (x * x))); [apply gG_bound|].
    rewrite exp_Ropp. rewrite <- (Rinv_inv c).
    apply Rinv_lt_contravar.
    - apply Rmult_lt_0_compat; auto. apply exp_pos.
    - apply Rlt_le_trans with (1 + x * x); [nra|]. apply exp_ineq1_le. }
  pose proof (gI_sq x) as H.
  assert (0 <= gI x). { rewrite <- gI_0. apply gI_mono. lra. }
  destruct (Rle_or_lt (sqrt PI / 2 - d) (gI x)) as [Hle|Hlt]; [lra|]. exfalso.
  unfold c in Hg. nra.
Qed.

(** ** The standard normal distribution *)

Definition phi (t : R) : R := exp (- (t * t) / 2) / sqrt (2 * PI).

(** norm.cdf with loc=0, scale=1 on extended numbers. *)
Definition PhiR (x : R) : R := / 2 + RInt phi 0 x.
Definition Phi (x : num) : R :=
  match x with NInf => 0 | Fin r => PhiR r | PInf => 1 | NaN => 0 end.

Lemma sqrt_2PI_pos : 0 < sqrt (2 * PI).
Proof. apply sqrt_lt_R0. pose proof PI_RGT_0. lra. Qed.

Lemma phi_pos t : 0 < phi t.
Proof. unfold phi. apply Rdiv_lt_0_compat; [apply exp_pos|apply sqrt_2PI_pos]. Qed.

Lemma phi_cont (x : R) : continuous phi x.
Proof. apply (ex_derive_continuous phi). unfold phi. auto_derive. auto. Qed.

Lemma phi_ex a b : ex_RInt phi a b.
Proof. apply (ex_RInt_continuous (V := R_CompleteNormedModule)). intros. apply phi_cont. Qed.

Lemma PhiR_gI x : PhiR x = / 2 + gI (x / sqrt 2) / sqrt PI.
Proof.
  unfold PhiR. f_equal. unfold gI.
  assert (H2 : 0 < sqrt 2) by (apply sqrt_lt_R0; lra).
  assert (Hs2 : sqrt 2 * sqrt 2 = 2) by (apply sqrt_sqrt; lra).
  pose proof (RInt_comp_lin (V := R_CompleteNormedModule) gf (/ sqrt 2) 0 0 x) as H.
  replace (/ sqrt 2 * 0 + 0) with 0 in H by ring. replace (/ sqrt 2 * x + 0) with (x / sqrt 2) in H by (field; lra).
  rewrite <- (H (gf_ex _ _)). unfold Rdiv. rewrite Rmult_comm.
  change (/ sqrt PI * RInt (fun y => scal (/ sqrt 2) (gf (/ sqrt 2 * y + 0))) 0 x) with
    (scal (/ sqrt PI) (RInt (fun y => scal (/ sqrt 2) (gf (/ sqrt 2 * y + 0))) 0 x)).
  rewrite <- (RInt_scal (V := R_CompleteNormedModule)).
  - apply RInt_ext. intros t _. unfold scal; simpl; unfold mult; simpl. unfold phi, gf.
    rewrite sqrt_mult by (pose proof PI_RGT_0; lra).
    replace (- ((/ sqrt 2 * t + 0) * (/ sqrt 2 * t + 0))) with (- (t * t) / 2).
    + pose proof sqrt_PI_pos. field. split; lra.
    + rewrite <- Hs2 at 1. field. lra.
  - apply (ex_RInt_continuous (V := R_CompleteNormedModule)). intros z _.
    apply (ex_derive_continuous (fun y => scal (/ sqrt 2) (gf (/ sqrt 2 * y + 0)))).
    unfold scal; simpl; unfold mult; simpl. unfold gf. auto_derive. auto.
Qed.

Lemma PhiR_strict x y : x < y -> PhiR x < PhiR y.
Proof.
  intros H. rewrite !PhiR_gI. assert (H2 : 0 < sqrt 2) by (apply sqrt_lt_R0; lra). pose proof sqrt_PI_pos.
  apply Rplus_lt_compat_l. apply Rmult_lt_compat_r; [now apply Rinv_0_lt_compat|]. apply gI_strict.
  apply Rmult_lt_compat_r; auto. now apply Rinv_0_lt_compat.
Qed.

Lemma PhiR_range x : 0 <= PhiR x <= 1.
Proof.
  rewrite PhiR_gI. destruct (gI_abs (x / sqrt 2)) as [H1 H2]. pose proof sqrt_PI_pos.
  assert (E : forall a, a / sqrt PI * sqrt PI = a) by (intros; field; lra).
  split; apply Rmult_le_reg_r with (sqrt PI); auto; rewrite ?Rmult_plus_distr_r, E; lra.
Qed.

Lemma PhiR_range_strict x : 0 < PhiR x < 1.
Proof.
  pose proof (PhiR_range (x - 1)). pose proof (PhiR_range (x + 1)).
  assert (PhiR (x - 1) < PhiR x) by (apply PhiR_strict; lra).
  assert (PhiR x < PhiR (x + 1)) by (apply PhiR_strict; lra). lra.
Qed.

Lemma PhiR_derive (x : R) : is_derive PhiR x (phi x).
Proof.
  unfold PhiR.
  replace (phi x) with (plus 0 (phi x)) by (unfold plus; simpl; ring).
  apply (is_derive_plus (fun _ => / 2) (fun x => RInt phi 0 x)).
  - apply (is_derive_const (/ 2)).
  - apply (is_derive_RInt (V := R_NormedModule) phi _ 0).
    + apply filter_forall. intros b. apply (RInt_correct (V := R_CompleteNormedModule)), phi_ex.
    + apply phi_cont.
Qed.

(** The total mass of the normal density is one. *)
Lemma PhiR_limits eps : 0 < eps -> exists M, forall x, M <= x -> 1 - eps <= PhiR x /\ PhiR (- x) <= eps.
Proof.
  intros He. pose proof sqrt_PI_pos as Hp. assert (H2 : 0 < sqrt 2) by (apply sqrt_lt_R0; lra).
  destruct (gI_limit_pos (eps * sqrt PI)) as [M [HM H]]; [nra|].
  exists (M * sqrt 2). intros x Hx.
  assert (Hxm : M <= x / sqrt 2).
  { apply Rmult_le_reg_r with (sqrt 2); auto. replace (x / sqrt 2 * sqrt 2) with x by (field; lra). auto. }
  specialize (H _ Hxm).
  assert (Hodd : gI (- x / sqrt 2) = - gI (x / sqrt 2)).
  { unfold gI. pose proof (RInt_comp_lin (V := R_CompleteNormedModule) gf (-1) 0 0 (x / sqrt 2)) as Hc.
    replace (-1 * 0 + 0) with 0 in Hc by ring. replace (-1 * (x / sqrt 2) + 0) with (- x / sqrt 2) in Hc by (field; lra).
    rewrite <- (Hc (gf_ex _ _)).
    change (- RInt gf 0 (x / sqrt 2)) with (opp (RInt gf 0 (x / sqrt 2))).
    rewrite <- (RInt_opp (V := R_CompleteNormedModule)) by apply gf_ex.
    apply RInt_ext. intros t _. unfold scal, opp; simpl; unfold mult; simpl. unfold gf.
    replace ((-1 * t + 0) * (-1 * t + 0)) with (t * t) by ring. ring. }
  rewrite !PhiR_gI, Hodd.
  assert (E : forall a, a / sqrt PI * sqrt PI = a) by (intros; field; lra).
  split; apply Rmult_le_reg_r with (sqrt PI); auto; rewrite ?Rmult_plus_distr_r, ?E; lra.
Qed.
