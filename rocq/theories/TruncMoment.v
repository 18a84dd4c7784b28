(** * TruncMoment: the numbers computed by TruncatedGaussianDistribution.moment are integrals against its density *)
From Coquelicot Require Import Coquelicot.
From Coq Require Import List Arith Bool Lia Reals Lra.
From Verif Require Import Num Interval GaussInt GammaFn Dist DistFacts MomentFacts LeafCond GaussMoment GammaFacts.
Import ListNotations.
Local Open Scope R_scope.
Local Set Bullet Behavior "Strict Subproofs".

(** ** Integrals over a part of the line *)
Section Part.
Variables (g G : R -> R).
Hypothesis HG : forall x, is_derive G x (g x).
Hypothesis Hg : forall x, continuous g x.

Lemma G_int a b : is_RInt g a b (G b - G a).
Proof. apply (is_RInt_derive (V := R_CompleteNormedModule) G); auto. Qed.

(** The part to the right of [a]; what happens at [a] does not matter. *)
Lemma right_part p a : (forall x, a < x -> p x = true) -> (forall x, x < a -> p x = false) -> forall l h, l <= h ->
  is_RInt (fun x => if p x : bool then g x else 0) l h (G (Rmax a h) - G (Rmax a l)).
Proof.
  intros H1 H0 l h Hlh.
  assert (Z : forall l' h', l' <= h' -> h' <= a -> is_RInt (fun x => if p x : bool then g x else 0) l' h' 0).
  { intros l' h' H Ha. apply (is_RInt_ext (fun _ => 0)).
    - intros x Hx. rewrite Rmin_left, Rmax_right in Hx by lra. rewrite H0 by lra. reflexivity.
    - assert (Q := is_RInt_const (V := R_NormedModule) l' h' 0). unfold scal in Q; simpl in Q; unfold mult in Q; simpl in Q. now rewrite Rmult_0_r in Q. }
  assert (W : forall l' h', l' <= h' -> a <= l' -> is_RInt (fun x => if p x : bool then g x else 0) l' h' (G h' - G l')).
  { intros l' h' H Ha. apply (is_RInt_ext g); [|apply G_int]. intros x Hx. rewrite Rmin_left, Rmax_right in Hx by lra. rewrite H1 by lra. reflexivity. }
  destruct (Rle_lt_dec h a) as [Ha|Ha].
  - rewrite !Rmax_left by lra. replace (G a - G a) with 0 by ring. now apply Z.
  - destruct (Rle_lt_dec a l) as [Hl|Hl].
    + rewrite !Rmax_right by lra. now apply W.
    + rewrite (Rmax_right a h), (Rmax_left a l) by lra.
      assert (Q := is_RInt_Chasles (V := R_NormedModule) _ l a h _ _ (Z l a ltac:(lra) ltac:(lra)) (W a h ltac:(lra) ltac:(lra))).
      unfold plus in Q; simpl in Q. now rewrite Rplus_0_l in Q.
Qed.

Lemma limit_of_values (f F : R -> R) la lb : (forall l h, l <= h -> is_RInt f l h (F h - F l)) ->
  filterlim F (Rbar_locally m_infty) (locally la) -> filterlim F (Rbar_locally p_infty) (locally lb) -> line_integral f (lb - la).
Proof.
  intros Hf Ha Hb. unfold line_integral, is_RInt_gen.
  assert (L : filterlim (fun ab : R * R => F (snd ab) - F (fst ab)) (filter_prod (Rbar_locally m_infty) (Rbar_locally p_infty)) (locally (lb - la))).
  { apply (filterlim_comp_2 (G := locally lb) (H := locally (opp la))) with (f := fun ab : R * R => F (snd ab)) (g := fun ab : R * R => opp (F (fst ab))) (h := plus).
    - apply (filterlim_comp _ _ _ snd F _ (Rbar_locally p_infty)); [apply filterlim_snd|exact Hb].
    - apply (filterlim_comp _ _ _ (fun ab : R * R => F (fst ab)) opp _ (locally la)); [|apply (filterlim_opp (V := R_NormedModule))].
      apply (filterlim_comp _ _ _ fst F _ (Rbar_locally m_infty)); [apply filterlim_fst|exact Ha].
    - apply (filterlim_plus (V := R_NormedModule)). }
  intros P HP. specialize (L P HP).
  assert (Q : filter_prod (Rbar_locally m_infty) (Rbar_locally p_infty) (fun ab => fst ab <= snd ab)).
  { apply (Filter_prod _ _ _ (fun a => a < 0) (fun b => 0 < b)); [exists 0; auto|exists 0; auto|]. simpl. intros; lra. }
  unfold filtermap in L. unfold filtermapi. eapply filter_imp; [|exact (filter_and _ _ L Q)]. intros [a b] [H1 H2]. simpl in *.
  exists (F b - F a). split; [now apply Hf|exact H1].
Qed.

(** What remains of a number at a bound of the interval: the value of [G] there, a limit at infinity. *)
Variables (gm gp : R).
Hypothesis Hm : filterlim G (Rbar_locally m_infty) (locally gm).
Hypothesis Hp : filterlim G (Rbar_locally p_infty) (locally gp).
Definition at_bound (x : num) : R := match x with Fin a => G a | NInf => gm | _ => gp end.

Lemma eventually_max_p a : filterlim (fun x => G (Rmax a x)) (Rbar_locally p_infty) (locally gp).
Proof.
  eapply filterlim_ext_loc; [|exact Hp]. exists a. intros x Hx. simpl. rewrite Rmax_right by lra. reflexivity.
Qed.
Lemma eventually_max_m a : filterlim (fun x => G (Rmax a x)) (Rbar_locally m_infty) (locally (G a)).
Proof.
  eapply filterlim_ext_loc; [|exact (filterlim_const (G a))]. exists a. intros x Hx. simpl. rewrite Rmax_left by lra. reflexivity.
Qed.

Lemma interval_integral i : lo i <> NaN -> hi i <> NaN -> nlt (lo i) (hi i) ->
  line_integral (fun x => if in_sint i x then g x else 0) (at_bound (hi i) - at_bound (lo i)).
Proof.
  intros HL HH Hlt.
  (* the part above the lower bound *)
  assert (A : exists F, (forall l h, l <= h -> is_RInt (fun x => if above i x then g x else 0) l h (F h - F l)) /\
    filterlim F (Rbar_locally m_infty) (locally (at_bound (lo i))) /\ filterlim F (Rbar_locally p_infty) (locally gp)).
  { destruct (lo i) as [| |a|] eqn:El; try tauto.
    - exists G. split; [|split; auto]. intros l h H. apply (is_RInt_ext g); [|apply G_int]. intros x _. unfold above. now rewrite El.
    - exists (fun x => G (Rmax a x)). split; [|split; [apply eventually_max_m|apply eventually_max_p]].
      apply right_part; intros x Hx; unfold above; rewrite El; unfold Rleb, Rltb; destruct (lc i).
      + destruct (Rle_dec a x); [reflexivity|lra].
      + destruct (Rlt_dec a x); [reflexivity|lra].
      + destruct (Rle_dec a x); [lra|reflexivity].
      + destruct (Rlt_dec a x); [lra|reflexivity]. }
  (* the part not below the upper bound *)
  assert (B : exists F, (forall l h, l <= h -> is_RInt (fun x => if negb (below i x) then g x else 0) l h (F h - F l)) /\
    exists m, filterlim F (Rbar_locally m_infty) (locally m) /\ exists p, filterlim F (Rbar_locally p_infty) (locally p) /\ p - m = gp - at_bound (hi i)).
  { destruct (hi i) as [| |b|] eqn:Eh; try tauto.
    - destruct (lo i); simpl in Hlt; tauto.
    - exists (fun x => G (Rmax b x)). split.
      + apply right_part; intros x Hx; unfold below; rewrite Eh; unfold Rleb, Rltb; destruct (rc i).
        * destruct (Rle_dec x b); [lra|reflexivity].
        * destruct (Rlt_dec x b); [lra|reflexivity].
        * destruct (Rle_dec x b); [reflexivity|lra].
        * destruct (Rlt_dec x b); [reflexivity|lra].
      + exists (G b). split; [apply eventually_max_m|]. exists gp. split; [apply eventually_max_p|]. reflexivity.
    - exists (fun _ => 0). split.
      + intros l h H. apply (is_RInt_ext (fun _ => 0)).
        * intros x _. unfold below. now rewrite Eh.
        * assert (Q := is_RInt_const (V := R_NormedModule) l h 0). unfold scal in Q; simpl in Q; unfold mult in Q; simpl in Q.
          rewrite Rmult_0_r in Q. now replace (0 - 0) with 0 by ring.
      + exists 0. split; [apply filterlim_const|]. exists 0. split; [apply filterlim_const|]. simpl. ring. }
  destruct A as (FA & A1 & A2 & A3). destruct B as (FB & B1 & m & B2 & p & B3 & Epm).
  replace (at_bound (hi i) - at_bound (lo i)) with ((gp - p) - (at_bound (lo i) - m)) by lra.
  apply (limit_of_values _ (fun x => FA x - FB x)).
  - intros l h H. assert (Q := is_RInt_minus (V := R_NormedModule) _ _ l h _ _ (A1 l h H) (B1 l h H)).
    replace (FA h - FB h - (FA l - FB l)) with ((FA h - FA l) - (FB h - FB l)) by ring.
    eapply is_RInt_ext; [|exact Q]. intros x _. simpl. unfold minus, plus, opp; simpl. unfold in_sint.
    assert (X : above i x = false -> below i x = true).
    { unfold above, below. destruct (lo i) as [| |a|], (hi i) as [| |b|]; simpl in Hlt; try tauto; try discriminate; auto.
      unfold Rleb, Rltb. destruct (lc i), (rc i); repeat match goal with |- context[Rle_dec ?u ?v] => destruct (Rle_dec u v) | |- context[Rlt_dec ?u ?v] => destruct (Rlt_dec u v) end; auto; try discriminate; lra. }
    destruct (above i x), (below i x); simpl; try ring. specialize (X eq_refl). discriminate.
  - apply (filterlim_comp_2 (G := locally (at_bound (lo i))) (H := locally (opp m))) with (f := FA) (g := fun x => opp (FB x)) (h := plus); auto.
    + apply (filterlim_comp _ _ _ FB opp _ (locally m)); [exact B2|apply (filterlim_opp (V := R_NormedModule))].
    + apply (filterlim_plus (V := R_NormedModule)).
  - apply (filterlim_comp_2 (G := locally gp) (H := locally (opp p))) with (f := FA) (g := fun x => opp (FB x)) (h := plus); auto.
    + apply (filterlim_comp _ _ _ FB opp _ (locally p)); [exact B3|apply (filterlim_opp (V := R_NormedModule))].
    + apply (filterlim_plus (V := R_NormedModule)).
Qed.
End Part.

(** ** The primitive of (x - c)^n times the normal density *)
Lemma binom_pow m n x : binom m n (fun k => x ^ k) = (x + m) ^ n.
Proof.
  induction n as [|n IH]; [unfold binom; simpl; ring|]. rewrite binom_S, IH.
  rewrite (binom_ext m n (fun k => x ^ S k) (fun k => x * x ^ k + 0 * x ^ k)) by (intros; simpl; ring).
  rewrite (binom_lin m n (fun k => x ^ k) (fun k => x ^ k) x 0), IH. simpl. ring.
Qed.

Lemma sumto_derive (f f' : nat -> R -> R) n x : (forall k, (k <= n)%nat -> is_derive (f k) x (f' k x)) ->
  is_derive (fun y => sumto (fun k => f k y) n) x (sumto (fun k => f' k x) n).
Proof.
  induction n as [|n IH]; intros H; [apply H; lia|]. cbn [sumto].
  apply (is_derive_plus (fun y => sumto (fun k => f k y) n) (f (S n))); auto.
Qed.

Lemma sumto_limit (F : (R -> Prop) -> Prop) {FF : Filter F} (f : nat -> R -> R) (l : nat -> R) n :
  (forall k, (k <= n)%nat -> filterlim (f k) F (locally (l k))) -> filterlim (fun y => sumto (fun k => f k y) n) F (locally (sumto l n)).
Proof.
  induction n as [|n IH]; intros H; [apply H; lia|]. cbn [sumto].
  apply (filterlim_comp_2 (G := locally (sumto l n)) (H := locally (l (S n)))) with (f := fun y => sumto (fun k => f k y) n) (g := f (S n)) (h := plus); auto.
  apply (filterlim_plus (V := R_NormedModule)).
Qed.

Lemma scal_limit (F : (R -> Prop) -> Prop) {FF : Filter F} c (f : R -> R) l : filterlim f F (locally l) -> filterlim (fun y => c * f y) F (locally (c * l)).
Proof.
  intros H. apply (filterlim_comp _ _ _ f (fun y => c * y) _ (locally l)); [exact H|]. exact (filterlim_scal_r (V := R_NormedModule) c l).
Qed.

Section Primitive.
Variables (mu s c : R) (n : nat).
Hypothesis Hs : 0 < s.
Let c' := (c - mu) / s.
Definition tgG (x : R) : R := s ^ n * binom (- c') n (fun k => Mk k ((x - mu) / s)).

Lemma tgG_derive x : is_derive tgG x ((x - c) ^ n * gdens mu s x).
Proof.
  unfold tgG. set (z := (x - mu) / s).
  assert (Dz : is_derive (fun y => (y - mu) / s) x (/ s)) by (auto_derive; [auto|field; lra]).
  assert (D : is_derive (fun y => binom (- c') n (fun k => Mk k ((y - mu) / s))) x (binom (- c') n (fun k => pk k z / s))).
  { unfold binom. apply (sumto_derive (fun k y => INR (comb n k) * (- c') ^ (n - k) * Mk k ((y - mu) / s)) (fun k y => INR (comb n k) * (- c') ^ (n - k) * (pk k z / s))).
    intros k _. apply is_derive_scal. assert (Q := is_derive_comp (Mk k) (fun y => (y - mu) / s) x _ _ (Mk_derive k _) Dz).
    match type of Q with is_derive _ _ ?v => replace (pk k z / s) with v; [exact Q|] end.
    unfold scal; simpl; unfold mult; simpl. fold z. field. lra. }
  apply (is_derive_scal _ _ (s ^ n)) in D. match type of D with is_derive _ _ ?v => replace ((x - c) ^ n * gdens mu s x) with v; [exact D|] end.
  rewrite (binom_ext _ _ (fun k => pk k z / s) (fun k => phi z / s * z ^ k + 0 * z ^ k)) by (intros k; unfold pk; field; lra).
  rewrite (binom_lin (- c') n (fun k => z ^ k) (fun k => z ^ k) (phi z / s) 0), binom_pow. unfold gdens. fold z.
  replace (x - c) with (s * (z + - c')) by (unfold z, c'; field; lra). rewrite Rpow_mult_distr. ring.
Qed.

Definition mk_num (k : nat) (z : num) : R :=
  match z with Fin r => Mk k r | NInf => (-1) ^ S k * (gconst k / 2) | _ => gconst k / 2 end.

Lemma Mk_limit_m k : filterlim (Mk k) (Rbar_locally m_infty) (locally ((-1) ^ S k * (gconst k / 2))).
Proof.
  apply (filterlim_ext (fun x => (-1) ^ S k * Mk k (- x))).
  - intros x. rewrite <- Mk_opp. now rewrite Ropp_involutive.
  - apply (scal_limit _ _ (fun x => Mk k (- x))). apply (filterlim_comp _ _ _ Ropp (Mk k) _ (Rbar_locally p_infty)); [|apply Mk_limit].
    intros P [M HM]. exists (- M). intros x Hx. apply HM. lra.
Qed.

Lemma affine_p : filterlim (fun x => (x - mu) / s) (Rbar_locally p_infty) (Rbar_locally p_infty).
Proof.
  intros P [M HM]. exists (mu + s * M). intros x Hx. apply HM. apply Rmult_lt_reg_r with s; auto.
  replace ((x - mu) / s * s) with (x - mu) by (field; lra). lra.
Qed.
Lemma affine_m : filterlim (fun x => (x - mu) / s) (Rbar_locally m_infty) (Rbar_locally m_infty).
Proof.
  intros P [M HM]. exists (mu + s * M). intros x Hx. apply HM. apply Rmult_lt_reg_r with s; auto.
  replace ((x - mu) / s * s) with (x - mu) by (field; lra). lra.
Qed.

Definition tgG_num (x : num) : R := s ^ n * binom (- c') n (fun k => mk_num k (zscore mu s x)).

Lemma tgG_p : filterlim tgG (Rbar_locally p_infty) (locally (tgG_num PInf)).
Proof.
  unfold tgG, tgG_num, binom. apply scal_limit; [typeclasses eauto|].
  apply (sumto_limit _ (fun k y => INR (comb n k) * (- c') ^ (n - k) * Mk k ((y - mu) / s)) (fun k => INR (comb n k) * (- c') ^ (n - k) * (gconst k / 2))).
  intros k _. apply scal_limit; [typeclasses eauto|]. apply (filterlim_comp _ _ _ _ (Mk k) _ _ _ affine_p). apply Mk_limit.
Qed.
Lemma tgG_m : filterlim tgG (Rbar_locally m_infty) (locally (tgG_num NInf)).
Proof.
  unfold tgG, tgG_num, binom. apply scal_limit; [typeclasses eauto|].
  apply (sumto_limit _ (fun k y => INR (comb n k) * (- c') ^ (n - k) * Mk k ((y - mu) / s)) (fun k => INR (comb n k) * (- c') ^ (n - k) * ((-1) ^ S k * (gconst k / 2)))).
  intros k _. apply scal_limit; [typeclasses eauto|]. apply (filterlim_comp _ _ _ _ (Mk k) _ _ _ affine_m). apply Mk_limit_m.
Qed.

Lemma truncated_integral i : lo i <> NaN -> hi i <> NaN -> nlt (lo i) (hi i) ->
  line_integral (fun x => if in_sint i x then (x - c) ^ n * gdens mu s x else 0) (tgG_num (hi i) - tgG_num (lo i)).
Proof.
  intros HL HH Hlt.
  assert (Q := interval_integral (fun x => (x - c) ^ n * gdens mu s x) tgG tgG_derive (fun x => pow_gdens_cont mu s c n x Hs) _ _ tgG_m tgG_p i HL HH Hlt).
  assert (E : forall x, x <> NaN -> at_bound tgG (tgG_num NInf) (tgG_num PInf) x = tgG_num x).
  { intros [| |r|] H; try reflexivity. }
  now rewrite !E in Q by auto.
Qed.
End Primitive.

(** ** What the code computes *)
Lemma pm1_odd k : (-1) ^ k = if Nat.even k then 1 else -1.
Proof. induction k as [|k IH]; [reflexivity|]. rewrite Nat.even_succ, <- Nat.negb_even. simpl. rewrite IH. destruct (Nat.even k); simpl; lra. Qed.

Lemma bound_term k z : z <> NaN -> gconst k * (1 / 2 * gamma_of_bound k z * (if Nat.even k then np_sign z else 1)) = mk_num k z.
Proof.
  intros Hz. destruct z as [| |r|]; [congruence| | |].
  - cbn [gamma_of_bound np_sign mk_num]. rewrite pm1_odd, Nat.even_succ, <- Nat.negb_even. destruct (Nat.even k); simpl; field.
  - cbn [gamma_of_bound np_sign mk_num]. assert (E := gamma_cdf_Mk k r). replace (r * r / 2) with (r ^ 2 / 2) in E by (simpl; field).
    assert (T : forall x, gconst k * (1 / 2 * gamma_cdf k (r ^ 2 / 2) * x) = x * (gconst k * (/ 2 * gamma_cdf k (r ^ 2 / 2)))) by (intros; field).
    rewrite T. clear T. destruct (Rlt_dec r 0) as [Hr|Hr].
    + rewrite Rabs_left, Mk_opp in E by auto. rewrite pm1_odd, Nat.even_succ, <- Nat.negb_even in E. rewrite E. destruct (Nat.even k); simpl; lra.
    + destruct (Rlt_dec 0 r) as [Hr'|Hr'].
      * rewrite Rabs_right in E by lra. rewrite E. destruct (Nat.even k); lra.
      * assert (r = 0) by lra. subst r. rewrite Rabs_R0, Mk_0 in E. rewrite Mk_0, E. destruct (Nat.even k); lra.
  - cbn [gamma_of_bound np_sign mk_num]. destruct (Nat.even k); lra.
Qed.

Lemma tg_sum_value n mu s c l u : l <> NaN -> u <> NaN ->
  fold_left (fun acc k => acc + tg_summand n (zscore mu s l) (zscore mu s u) ((c - mu) / s) k) (seq 0 (S n)) 0 * s ^ n = tgG_num mu s c n u - tgG_num mu s c n l.
Proof.
  intros Hl Hu. rewrite fold_left_sum, sumto_seq, Rplus_0_l. unfold tgG_num. rewrite <- Rmult_minus_distr_l, Rmult_comm. f_equal.
  assert (Z : forall x, x <> NaN -> zscore mu s x <> NaN) by (intros [| |r|]; simpl; congruence).
  transitivity (binom (- ((c - mu) / s)) n (fun k => 1 * mk_num k (zscore mu s u) + (-1) * mk_num k (zscore mu s l))).
  - unfold binom. apply sumto_ext. intros k Hk. rewrite <- !bound_term by auto. unfold tg_summand, gconst. unfold Rdiv. ring.
  - rewrite binom_lin. ring.
Qed.

Lemma tg_const_value i mu s : 0 < s -> lo i <> NaN -> hi i <> NaN -> nlt (lo i) (hi i) -> exists z, 0 < z /\ tg_const i mu s = Fin z.
Proof.
  intros Hs HL HH Hlt. unfold tg_const, gauss_cdf. destruct (Rlt_dec 0 s); [|lra].
  assert (B : forall r, 0 < PhiR r < 1) by apply PhiR_range_strict.
  destruct (lo i) as [| |a|], (hi i) as [| |b|]; simpl in Hlt; try tauto; cbn; try (eexists; split; [|reflexivity]).
  - specialize (B ((b - mu) / s)). lra.
  - lra.
  - assert (PhiR ((a - mu) / s) < PhiR ((b - mu) / s)) by (apply PhiR_strict; apply Rmult_lt_compat_r; [now apply Rinv_0_lt_compat|lra]). lra.
  - specialize (B ((a - mu) / s)). lra.
Qed.

Theorem tg_moment_integral v i mu s n c : dist_ok (DTGauss v i mu s) ->
  exists m, tg_moment i mu s n c = Some m /\ line_integral (fun x => (x - c) ^ n * density (DTGauss v i mu s) x) m.
Proof.
  intros (Hs & HL & HH & Hlt). destruct (tg_const_value i mu s Hs HL HH Hlt) as (z & Hz & Ez). unfold tg_moment. rewrite Ez.
  destruct (Req_EM_T z 0); [lra|]. eexists. split; [reflexivity|].
  replace (_ * (s ^ n / z)) with (/ z * (tgG_num mu s c n (hi i) - tgG_num mu s c n (lo i))) by (rewrite <- tg_sum_value by auto; field; lra).
  apply (line_ext (fun x => / z * (if in_sint i x then (x - c) ^ n * gdens mu s x else 0))).
  - intros x. unfold density. cbn [ll1]. destruct (in_sint i x); [|simpl; ring]. unfold gauss_logpdf. destruct (Rlt_dec 0 s); [|lra]. rewrite Ez.
    assert (Hp : 0 < phi ((x - mu) / s) / s) by (apply Rdiv_lt_0_compat; auto using phi_pos).
    assert (L : forall y, 0 < y -> nlog (Fin y) = Fin (ln y)) by (intros y Hy; cbn [nlog]; destruct (total_order_T y 0) as [[?|?]|?]; try lra; reflexivity).
    rewrite !L by auto. cbn [nsub nadd nopp nexp]. rewrite exp_plus, exp_Ropp, !exp_ln by auto. unfold gdens. ring.
  - apply line_scal. now apply truncated_integral.
Qed.

Lemma line_nonneg f m : (forall x, 0 <= f x) -> line_integral f m -> 0 <= m.
Proof.
  intros Hf H. destruct (Rle_lt_dec 0 m) as [Hm|Hm]; [exact Hm|exfalso].
  assert (E : 0 < - m) by lra. unfold line_integral, is_RInt_gen in H.
  specialize (H (fun y => y < 0)). assert (L : locally m (fun y => y < 0)).
  { exists (mkposreal _ E). intros y Hy. apply Rabs_def2 in Hy. unfold minus, plus, opp in Hy; simpl in Hy. lra. }
  specialize (H L). unfold filtermapi in H.
  assert (Q : filter_prod (Rbar_locally m_infty) (Rbar_locally p_infty) (fun ab => fst ab <= snd ab)).
  { apply (Filter_prod _ _ _ (fun a => a < 0) (fun b => 0 < b)); [exists 0; auto|exists 0; auto|]. simpl. intros; lra. }
  destruct (filter_ex _ (filter_and _ _ H Q)) as ([a b] & (y & Hy & Hneg) & Hab). simpl in *.
  assert (0 <= y) by (apply (is_RInt_ge_0 f a b y); auto). lra.
Qed.

Lemma density_nonneg d x : 0 <= density d x.
Proof.
  unfold density. destruct (ll1 d x) as [| |r|]; simpl; try lra. left. apply exp_pos.
Qed.
