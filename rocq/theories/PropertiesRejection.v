(** * Property C84: rejection sampling from truncated Gaussian distributions *)
From Coquelicot Require Import Coquelicot.
From Coq Require Import List Arith Bool Lia Reals Lra.
From Verif Require Import Num Interval GaussInt Dist DistFacts GaussMoment TruncMoment Heap RejectionSample.
Import ListNotations.
Local Open Scope R_scope.
Local Set Bullet Behavior "Strict Subproofs".

(** ** Specification *)

(** The members of the stream at the positions from [p] to [p'] (excluded) that lie in the interval, as samples. *)
Definition hits (nrm : nat -> R) (i : sint) (mu s : R) (p p' : nat) : list R :=
  filter (in_sint i) (map (fun k => mu + s * nrm k) (seq p (p' - p))).

(** One attempt: asking for one sample, without recursion, on the normal number [z]. *)
Definition try_one (v : nat) (i : sint) (mu s z : R) : option R :=
  match rejection_sample 1 (fun _ => z) v i mu s 1 0 with Some ([w], _) => Some w | _ => None end.

(** The probability, over a standard normal [z], that an attempt succeeds with a sample that satisfies [P]. *)
Definition succeeds (v : nat) (i : sint) (mu s : R) (P : R -> bool) (m : R) : Prop :=
  line_integral (fun z => phi z * match try_one v i mu s z with Some w => if P w then 1 else 0 | None => 0 end) m.

(** ** The samples *)

Lemma nlog_pos x : 0 < x -> nlog (Fin x) = Fin (ln x).
Proof. intros H. cbn. destruct (total_order_T x 0) as [[X|X]|X]; try lra. reflexivity. Qed.

Lemma kept v i mu s x : dist_ok (DTGauss v i mu s) -> gt_ninf (ll1 (DTGauss v i mu s) x) = in_sint i x.
Proof.
  intros (Hs & HL & HH & Hlt). cbn [ll1]. destruct (in_sint i x); [|reflexivity].
  unfold tg_const. rewrite !gauss_cdf_R by auto. cbn [nsub]. pose proof (gcdfR_strict mu s _ _ Hs Hlt) as Hq.
  unfold gauss_logpdf. destruct (Rlt_dec 0 s) as [_|]; [|lra]. pose proof (phi_pos ((x - mu) / s)) as Hp.
  assert (H0 : 0 < phi ((x - mu) / s) / s) by (apply Rdiv_lt_0_compat; lra).
  change (nsub (Fin (gcdfR mu s (hi i))) (Fin (gcdfR mu s (lo i)))) with (Fin (gcdfR mu s (hi i) - gcdfR mu s (lo i))).
  rewrite !nlog_pos by lra. reflexivity.
Qed.

Lemma hits_split nrm i mu s p q r : (p <= q)%nat -> (q <= r)%nat -> hits nrm i mu s p r = hits nrm i mu s p q ++ hits nrm i mu s q r.
Proof.
  intros H1 H2. unfold hits. rewrite <- filter_app, <- map_app. f_equal. f_equal.
  replace (r - p)%nat with ((q - p) + (r - q))%nat by lia. rewrite seq_app. f_equal. f_equal. lia.
Qed.

Lemma first_round nrm v i mu s n p : dist_ok (DTGauss v i mu s) ->
  filter (fun x => gt_ninf (ll1 (DTGauss v i mu s) x)) (norm_rvs nrm mu s n p) = hits nrm i mu s p (p + n).
Proof.
  intros Hok. unfold hits, norm_rvs. replace (p + n - p)%nat with n by lia. apply filter_ext. intros x. now apply kept.
Qed.

Lemma filter_le {A} (f : A -> bool) l : (length (filter f l) <= length l)%nat.
Proof. induction l as [|a l IH]; cbn; [lia|]. destruct (f a); cbn; lia. Qed.

Lemma hits_length nrm i mu s p q : (length (hits nrm i mu s p q) <= q - p)%nat.
Proof.
  unfold hits. etransitivity; [apply filter_le|]. now rewrite map_length, seq_length.
Qed.

(** The samples are the first [n] members of the stream that lie in the interval, in the order of the stream, and no
    number beyond the last of them is consumed. *)
Theorem C84_samples v i mu s nrm : dist_ok (DTGauss v i mu s) -> forall fuel n p l p',
  rejection_sample fuel nrm v i mu s n p = Some (l, p') ->
  (p <= p')%nat /\ l = hits nrm i mu s p p' /\ length l = n /\ forall q, (p <= q < p')%nat -> (length (hits nrm i mu s p q) < n)%nat.
Proof.
  intros Hok. induction fuel as [|f IH]; intros n p l p'; cbn [rejection_sample]; [discriminate|]. rewrite first_round by auto.
  pose proof (hits_length nrm i mu s p (p + n)) as HL.
  destruct (Nat.ltb_spec 0 (n - length (hits nrm i mu s p (p + n)))) as [Hr|Hr].
  - destruct (rejection_sample f nrm v i mu s (n - length (hits nrm i mu s p (p + n))) (p + n)) as [[rest q]|] eqn:E; [|discriminate].
    intros X. injection X as <- <-. destruct (IH _ _ _ _ E) as (H1 & H2 & H3 & H4). split; [lia|].
    split; [rewrite H2; symmetry; apply hits_split; lia|]. split; [rewrite app_length; lia|]. intros q' Hq.
    destruct (le_lt_dec (p + n) q') as [Hc|Hc].
    + rewrite (hits_split nrm i mu s p (p + n) q') by lia. rewrite app_length. specialize (H4 q' ltac:(lia)). lia.
    + pose proof (hits_length nrm i mu s p q'). lia.
  - intros X. injection X as <- <-. split; [lia|]. split; [reflexivity|]. split; [lia|]. intros q Hq.
    pose proof (hits_length nrm i mu s p q). lia.
Qed.

(** ... so that they lie in the interval ... *)
Corollary C84_within v i mu s nrm fuel n p l p' : dist_ok (DTGauss v i mu s) ->
  rejection_sample fuel nrm v i mu s n p = Some (l, p') -> length l = n /\ Forall (fun x => in_sint i x = true) l.
Proof.
  intros Hok E. destruct (C84_samples v i mu s nrm Hok _ _ _ _ _ E) as (_ & H1 & H2 & _). split; [exact H2|].
  rewrite H1. apply Forall_forall. intros x Hx. now apply filter_In in Hx.
Qed.

(** ... and the method ends if the stream hits the interval often enough. *)
Theorem C84_ends v i mu s nrm : dist_ok (DTGauss v i mu s) -> forall n p q, (n <= length (hits nrm i mu s p q))%nat ->
  forall fuel, (q - p < fuel)%nat -> exists l p', rejection_sample fuel nrm v i mu s n p = Some (l, p').
Proof.
  intros Hok n p q Hn fuel. revert n p Hn. induction fuel as [|f IH]; intros n p Hn Hf; [lia|].
  cbn [rejection_sample]. rewrite first_round by auto. pose proof (hits_length nrm i mu s p (p + n)) as HL. pose proof (hits_length nrm i mu s p q) as HQ.
  destruct (Nat.ltb_spec 0 (n - length (hits nrm i mu s p (p + n)))) as [Hr|Hr]; [|eauto].
  destruct (le_lt_dec (p + n) q) as [Hc|Hc].
  - rewrite (hits_split nrm i mu s p (p + n) q) in Hn by lia. rewrite app_length in Hn.
    destruct (IH (n - length (hits nrm i mu s p (p + n)))%nat (p + n)%nat) as (l & p' & E); [lia|lia|]. rewrite E. eauto.
  - lia.
Qed.

(** ** The law *)

Lemma try_one_spec v i mu s z : dist_ok (DTGauss v i mu s) ->
  try_one v i mu s z = if in_sint i (mu + s * z) then Some (mu + s * z) else None.
Proof.
  intros Hok. unfold try_one. cbn [rejection_sample]. rewrite first_round by auto. unfold hits. cbn [seq Nat.add Nat.sub map filter].
  destruct (in_sint i (mu + s * z)); reflexivity.
Qed.

Lemma Phi_m : filterlim PhiR (Rbar_locally m_infty) (locally 0).
Proof.
  apply (is_lim_spec _ m_infty 0). intros eps. destruct (PhiR_limits (eps / 2)) as [M H]; [destruct eps; simpl; lra|].
  exists (- M). intros x Hx. destruct (H (- x) ltac:(lra)) as [_ B]. rewrite Ropp_involutive in B.
  pose proof (PhiR_range x) as G. pose proof (cond_pos eps) as E. rewrite Rabs_right; lra.
Qed.
Lemma Phi_p : filterlim PhiR (Rbar_locally p_infty) (locally 1).
Proof.
  apply (is_lim_spec _ p_infty 1). intros eps. destruct (PhiR_limits (eps / 2)) as [M H]; [destruct eps; simpl; lra|].
  exists M. intros x Hx. destruct (H x ltac:(lra)) as [B _].
  pose proof (PhiR_range x) as G. pose proof (cond_pos eps) as E. rewrite Rabs_left1; lra.
Qed.

(** The normal probability of an interval. *)
Lemma normal_interval i : lo i <> NaN -> hi i <> NaN -> nlt (lo i) (hi i) ->
  line_integral (fun z => if in_sint i z then phi z else 0) (Phi (hi i) - Phi (lo i)).
Proof.
  intros H1 H2 H3. pose proof (interval_integral phi PhiR PhiR_derive phi_cont 0 1 Phi_m Phi_p i H1 H2 H3) as X.
  destruct (lo i), (hi i); try congruence; cbn in *; try tauto; exact X.
Qed.

Lemma normal_point c : line_integral (fun z => if Reqb z c then phi z else 0) 0.
Proof.
  pose proof (normal_interval (mkSint NInf (Fin c) false true) ltac:(discriminate) ltac:(discriminate) I) as A.
  pose proof (normal_interval (mkSint NInf (Fin c) false false) ltac:(discriminate) ltac:(discriminate) I) as B.
  pose proof (line_plus _ _ _ _ A (line_scal (-1) _ _ B)) as C. cbn [lo hi Phi] in C.
  replace (PhiR c - 0 + -1 * (PhiR c - 0)) with 0 in C by ring. eapply line_ext; [|exact C]. intros z.
  unfold in_sint, above, below. cbn. unfold Reqb, Rleb, Rltb.
  destruct (Req_EM_T z c), (Rle_dec z c), (Rlt_dec z c); cbn; try lra.
Qed.

(** The part of an interval up to [c]. *)
Lemma normal_cut j c : lo j <> NaN -> hi j <> NaN -> nlt (lo j) (hi j) -> Phi (lo j) < Phi (hi j) ->
  line_integral (fun z => if in_sint j z && Rleb z c then phi z else 0)
    ((Phi (hi j) - Phi (lo j)) *
     (if match lo j with Fin a => if lc j then Rleb a c else Rltb a c | NInf => true | _ => false end
      then Rmin 1 ((PhiR c - Phi (lo j)) / (Phi (hi j) - Phi (lo j))) else 0)).
Proof.
  intros J1 J2 J3 Hq.
  assert (MONO : forall a b, a <= b -> PhiR a <= PhiR b).
  { intros a b [H| ->]; [left; now apply PhiR_strict|right; reflexivity]. }
  assert (CASE : (exists b, hi j = Fin b /\ b <= c) \/ (forall b, hi j = Fin b -> c < b)).
  { destruct (hi j) as [| |b|]; try (right; discriminate). destruct (Rle_lt_dec b c) as [H|H]; [left; eauto|right; intros b' E; injection E as <-; exact H]. }
  destruct CASE as [(b & Eb & Hb)|Hb].
  - (* the whole interval *)
    assert (Lc : match lo j with Fin a => if lc j then Rleb a c else Rltb a c | NInf => true | _ => false end = true).
    { rewrite Eb in J3. destruct (lo j) as [| |a|]; cbn in J3; try tauto; auto. unfold Rleb, Rltb. destruct (lc j); [destruct (Rle_dec a c); auto; lra|destruct (Rlt_dec a c); auto; lra]. }
    rewrite Lc. assert (1 <= (PhiR c - Phi (lo j)) / (Phi (hi j) - Phi (lo j))).
    { apply Rmult_le_reg_r with (Phi (hi j) - Phi (lo j)); [lra|]. unfold Rdiv. rewrite Rmult_assoc, Rinv_l by lra. rewrite Eb. cbn [Phi]. pose proof (MONO b c Hb). lra. }
    rewrite Rmin_left by lra. rewrite Rmult_1_r. eapply line_ext; [|exact (normal_interval j J1 J2 J3)]. intros z. cbv beta.
    destruct (in_sint j z) eqn:E; [|reflexivity]. replace (Rleb z c) with true; [reflexivity|]. symmetry. unfold in_sint in E. apply andb_true_iff in E. destruct E as [_ E].
    unfold below in E. rewrite Eb in E. unfold Rleb, Rltb in *. destruct (Rle_dec z c); auto. destruct (rc j); [destruct (Rle_dec z b)|destruct (Rlt_dec z b)]; try discriminate; lra.
  - assert (Hle : PhiR c <= Phi (hi j)).
    { destruct (hi j) as [| |b|]; cbn in *; try (destruct (lo j); tauto); try tauto; [|apply PhiR_range]. apply MONO. left. now apply Hb. }
    assert (BEL : forall z, z <= c -> below j z = true).
    { intros z Hz. unfold below. destruct (hi j) as [| |b|]; try tauto; [destruct (lo j); cbn in J3; tauto|]. specialize (Hb b eq_refl). unfold Rleb, Rltb. destruct (rc j); [destruct (Rle_dec z b)|destruct (Rlt_dec z b)]; auto; lra. }
    assert (CASE : nlt (lo j) (Fin c) \/ exists a, lo j = Fin a /\ c <= a).
    { destruct (lo j) as [| |a|]; cbn; try tauto. destruct (Rlt_le_dec a c); eauto. }
    destruct CASE as [Ha|(a & Ea & Ha)].
    + assert (Lc : match lo j with Fin a => if lc j then Rleb a c else Rltb a c | NInf => true | _ => false end = true).
      { destruct (lo j) as [| |a|]; cbn in Ha; try tauto; auto. unfold Rleb, Rltb. destruct (lc j); [destruct (Rle_dec a c); auto; lra|destruct (Rlt_dec a c); auto; lra]. }
      rewrite Lc. rewrite Rmin_right.
      2:{ apply Rmult_le_reg_r with (Phi (hi j) - Phi (lo j)); [lra|]. unfold Rdiv. rewrite Rmult_assoc, Rinv_l by lra. lra. }
      replace ((Phi (hi j) - Phi (lo j)) * ((PhiR c - Phi (lo j)) / (Phi (hi j) - Phi (lo j)))) with (PhiR c - Phi (lo j)) by (field; lra).
      eapply line_ext; [|exact (normal_interval (mkSint (lo j) (Fin c) (lc j) true) J1 ltac:(discriminate) Ha)]. intros z. cbv beta.
      unfold in_sint. replace (above (mkSint (lo j) (Fin c) (lc j) true) z) with (above j z) by reflexivity. unfold below at 1. cbn [hi rc].
      destruct (above j z); [|reflexivity]. unfold Rleb. destruct (Rle_dec z c); cbn; [now rewrite BEL|now rewrite andb_false_r].
    + replace ((Phi (hi j) - Phi (lo j)) * (if match lo j with Fin a => if lc j then Rleb a c else Rltb a c | NInf => true | _ => false end
        then Rmin 1 ((PhiR c - Phi (lo j)) / (Phi (hi j) - Phi (lo j))) else 0)) with 0.
      * assert (E : forall z, (if in_sint j z && Rleb z c then phi z else 0) = (if Rleb a c && lc j then 1 else 0) * (if Reqb z c then phi z else 0)).
        { intros z. unfold in_sint, above. rewrite Ea. unfold Rleb, Rltb, Reqb. destruct (Rle_dec z c) as [Hz|Hz].
          - rewrite BEL by exact Hz. rewrite !andb_true_r. destruct (Req_EM_T z c) as [->|Hn].
            + destruct (lc j); [destruct (Rle_dec a c)|destruct (Rlt_dec a c)]; rewrite ?andb_false_r; cbn; lra.
            + destruct (lc j); [destruct (Rle_dec a z)|destruct (Rlt_dec a z)]; try lra.
          - rewrite andb_false_r. destruct (Req_EM_T z c); [subst; lra|]. ring. }
        eapply line_ext; [intros z; symmetry; apply E|]. pose proof (line_scal (if Rleb a c && lc j then 1 else 0) _ _ (normal_point c)) as X. rewrite Rmult_0_r in X. exact X.
      * rewrite Ea. unfold Rleb, Rltb. cbn [Phi]. destruct (lc j).
        -- destruct (Rle_dec a c) as [H|H]; [|ring]. assert (a = c) as -> by lra. replace (PhiR c - PhiR c) with 0 by ring. unfold Rdiv. rewrite Rmult_0_l, Rmin_right by lra. ring.
        -- destruct (Rlt_dec a c); [lra|ring].
Qed.

Definition standard (i : sint) (mu s : R) : sint := mkSint (zscore mu s (lo i)) (zscore mu s (hi i)) (lc i) (rc i).

Lemma standard_in i mu s z : 0 < s -> in_sint (standard i mu s) z = in_sint i (mu + s * z).
Proof.
  intros Hs. unfold in_sint, above, below, standard. cbn [lo hi lc rc].
  assert (L : forall a, a < mu + s * z <-> (a - mu) / s < z).
  { intros a. split; intros H.
    - apply Rmult_lt_reg_l with s; [lra|]. replace (s * ((a - mu) / s)) with (a - mu) by (field; lra). lra.
    - apply Rmult_lt_compat_l with (r := s) in H; [|lra]. replace (s * ((a - mu) / s)) with (a - mu) in H by (field; lra). lra. }
  assert (U : forall a, mu + s * z < a <-> z < (a - mu) / s).
  { intros a. split; intros H.
    - apply Rmult_lt_reg_l with s; [lra|]. replace (s * ((a - mu) / s)) with (a - mu) by (field; lra). lra.
    - apply Rmult_lt_compat_l with (r := s) in H; [|lra]. replace (s * ((a - mu) / s)) with (a - mu) in H by (field; lra). lra. }
  assert (EL : forall a, Rltb ((a - mu) / s) z = Rltb a (mu + s * z)) by (intros a; unfold Rltb; specialize (L a); destruct (Rlt_dec _ _), (Rlt_dec _ _); tauto).
  assert (EU : forall a, Rltb z ((a - mu) / s) = Rltb (mu + s * z) a) by (intros a; unfold Rltb; specialize (U a); destruct (Rlt_dec _ _), (Rlt_dec _ _); tauto).
  assert (EL' : forall a, Rleb ((a - mu) / s) z = Rleb a (mu + s * z)).
  { intros a. unfold Rleb. specialize (U a). destruct (Rle_dec ((a - mu) / s) z), (Rle_dec a (mu + s * z)); auto; exfalso; apply Rnot_le_lt in n; [apply U in n|apply U in n]; lra. }
  assert (EU' : forall a, Rleb z ((a - mu) / s) = Rleb (mu + s * z) a).
  { intros a. unfold Rleb. specialize (L a). destruct (Rle_dec z ((a - mu) / s)), (Rle_dec (mu + s * z) a); auto; exfalso; apply Rnot_le_lt in n; [apply L in n|apply L in n]; lra. }
  destruct (lo i), (hi i), (lc i), (rc i); cbn [zscore]; rewrite ?EL, ?EU, ?EL', ?EU'; reflexivity.
Qed.

(** Every attempt succeeds with the probability of the interval under the Gaussian distribution, and given success its sample has
    the cumulative distribution function of the truncated Gaussian distribution, whatever the bounds. *)
Theorem C84_law v i mu s : dist_ok (DTGauss v i mu s) ->
  exists q, 0 < q /\ tg_const i mu s = Fin q /\ succeeds v i mu s (fun _ => true) q /\
    forall y, exists c, continuous_cdf (DTGauss v i mu s) (Fin y) = Fin c /\ succeeds v i mu s (fun w => Rleb w y) (q * c).
Proof.
  intros Hok. pose proof Hok as (Hs & HL & HH & Hlt). pose proof (gcdfR_strict mu s _ _ Hs Hlt) as Hq.
  exists (gcdfR mu s (hi i) - gcdfR mu s (lo i)). split; [lra|]. split; [unfold tg_const; now rewrite !gauss_cdf_R by auto|].
  assert (G : forall x, gcdfR mu s x = Phi (zscore mu s x)) by (intros []; reflexivity).
  set (j := standard i mu s). assert (Ej : forall z, in_sint j z = in_sint i (mu + s * z)) by (intros z; now apply standard_in).
  assert (J1 : lo j <> NaN) by (cbn; destruct (lo i); cbn; congruence). assert (J2 : hi j <> NaN) by (cbn; destruct (hi i); cbn; congruence).
  assert (Hdiv : forall a b, a < b <-> (a - mu) / s < (b - mu) / s).
  { intros a b. split; intros H; [apply Rmult_lt_compat_r; [apply Rinv_0_lt_compat; lra|lra]|].
    apply Rmult_lt_compat_r with (r := s) in H; [|lra]. replace ((a - mu) / s * s) with (a - mu) in H by (field; lra).
    replace ((b - mu) / s * s) with (b - mu) in H by (field; lra). lra. }
  assert (J3 : nlt (lo j) (hi j)).
  { cbn. destruct (lo i), (hi i); cbn in *; try tauto. now apply (Hdiv r r0). }
  rewrite !G in *. change (zscore mu s (lo i)) with (lo j) in *. change (zscore mu s (hi i)) with (hi j) in *. split.
  - unfold succeeds. eapply line_ext; [|exact (normal_interval j J1 J2 J3)]. intros z. rewrite try_one_spec by auto. rewrite <- Ej.
    destruct (in_sint j z); cbn; ring.
  - intros y. exists (cdfR (DTGauss v i mu s) (Fin y)). split; [apply continuous_cdf_R; [exact I|exact Hok|discriminate]|].
    set (c := (y - mu) / s). unfold succeeds.
    assert (EC : forall z, Rleb (mu + s * z) y = Rleb z c).
    { intros z. unfold Rleb, c. pose proof (Hdiv y (mu + s * z)) as X. replace ((mu + s * z - mu) / s) with z in X by (field; lra).
      destruct (Rle_dec (mu + s * z) y), (Rle_dec z ((y - mu) / s)); auto; exfalso; tauto || (apply Rnot_le_lt in n; apply X in n; lra). }
    assert (EI : forall z, (if in_sint j z && Rleb z c then phi z else 0) = phi z * match try_one v i mu s z with Some w => if Rleb w y then 1 else 0 | None => 0 end).
    { intros z. rewrite try_one_spec by auto. rewrite <- Ej. destruct (in_sint j z); cbn; [rewrite EC; destruct (Rleb z c); ring|ring]. }
    apply (line_ext _ _ _ EI). cbn [cdfR].
    assert (EL : left_included i (Fin y) = match lo j with Fin a => if lc j then Rleb a c else Rltb a c | NInf => true | _ => false end).
    { unfold left_included. change (lc j) with (lc i). cbn [j standard lo]. destruct (lo i) as [| |a|]; cbn [zscore]; try reflexivity; try tauto.
      pose proof (Hdiv a y) as X1. pose proof (Hdiv y a) as X2. unfold Rleb, Rltb, c in *.
      destruct (lc i); [destruct (Rle_dec a y), (Rle_dec ((a - mu) / s) ((y - mu) / s))|destruct (Rlt_dec a y), (Rlt_dec ((a - mu) / s) ((y - mu) / s))]; auto; exfalso; try tauto;
        apply Rnot_le_lt in n; apply X2 in n; lra. }
    rewrite EL, !G. change (zscore mu s (Fin y)) with (Fin c). change (zscore mu s (lo i)) with (lo j). change (zscore mu s (hi i)) with (hi j).
    cbn [Phi]. apply normal_cut; auto.
Qed.

(** Two of the first three members of the stream 0, 1, 2, ... are above one half: asking for two samples takes two rounds. *)
Example two_rounds : rejection_sample 3 INR 0 (mkSint (Fin (1 / 2)) PInf true false) 0 1 2 0 = Some ([0 + 1 * INR 1; 0 + 1 * INR 2], 3%nat).
Proof.
  assert (Hok : dist_ok (DTGauss 0 (mkSint (Fin (1 / 2)) PInf true false) 0 1)) by (cbn; repeat split; try discriminate; lra).
  cbn [rejection_sample]. rewrite !first_round by exact Hok. unfold hits, in_sint, above, below. cbn [seq Nat.add Nat.sub map filter lo hi lc rc]. unfold Rleb.
  destruct (Rle_dec (1 / 2) (0 + 1 * INR 0)) as [H|_]; [simpl in H; lra|]. destruct (Rle_dec (1 / 2) (0 + 1 * INR 1)) as [_|H]; [|simpl in H; lra].
  cbn [andb length Nat.sub Nat.ltb Nat.leb]. cbn [seq Nat.add Nat.sub map filter lo hi lc rc].
  unfold Rleb. destruct (Rle_dec (1 / 2) (0 + 1 * INR 2)) as [_|H]; [reflexivity|simpl in H; lra].
Qed.

Print Assumptions C84_samples.
Print Assumptions C84_within.
Print Assumptions C84_ends.
Print Assumptions C84_law.
