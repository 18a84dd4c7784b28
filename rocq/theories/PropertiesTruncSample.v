(** * Property C64: samples of truncated Gaussian distributions *)
From Coquelicot Require Import Coquelicot.
From Coq Require Import List Arith Bool Lia Reals Lra Permutation.
From Verif Require Import Num Interval Graph EvalFacts GaussInt GammaFn Dist DistFacts CondFacts TruncMoment TruncSample.
Import ListNotations.
Local Open Scope R_scope.
Local Set Bullet Behavior "Strict Subproofs".

(** ** Specification *)

(** One attempt: asking for one sample, with one round, on a stream that starts with [r] and [v]. *)
Definition attempt (i : sint) (mu s r v : R) : option R :=
  match tg_sample 1 (fun k => if Nat.eqb k 0 then r else v) i mu s 1 0 with Some ([w], _) => Some w | _ => None end.

(** The probability, over independent uniform [r] and [v], that an attempt succeeds with a sample that satisfies [P]. *)
Definition success (i : sint) (mu s : R) (P : R -> bool) (m : R) : Prop :=
  exists F : R -> R,
    (forall r, 0 <= r <= 1 -> is_RInt (fun v => match attempt i mu s r v with Some w => if P w then 1 else 0 | None => 0 end) 0 1 (F r)) /\
    is_RInt F 0 1 m.

(** Given success, the attempt's sample has the cdf [c]. *)
Definition sample_law (i : sint) (mu s : R) (c : R -> R) : Prop :=
  exists q, 0 < q /\ success i mu s (fun _ => true) q /\ forall y, success i mu s (fun w => Rleb w y) (q * c y).

Definition bounded_somewhere (i : sint) : Prop := lo i <> NInf \/ hi i <> PInf.

(** The full claim. *)
Definition C64_full : Prop := forall v i mu s, dist_ok (DTGauss v i mu s) -> bounded_somewhere i ->
  sample_law i mu s (fun y => cdfR (DTGauss v i mu s) (Fin y)).

(** What is sampled instead: an infinite bound is replaced by ten standard deviations from the finite one. *)
Definition sampled (i : sint) (s : R) : sint :=
  match lo i, hi i with
  | Fin a, PInf => mkSint (Fin a) (Fin (a + 10 * s)) (lc i) (rc i)
  | NInf, Fin b => mkSint (Fin (b - 10 * s)) (Fin b) (lc i) (rc i)
  | _, _ => i
  end.

(** ** Proofs *)
Lemma enforced_eq v i mu s : dist_ok (DTGauss v i mu s) -> bounded_somewhere i -> exists a b, a < b /\
  lo (sampled i s) = Fin a /\ hi (sampled i s) = Fin b /\ lo (enforced i mu s) = Fin ((a - mu) / s) /\ hi (enforced i mu s) = Fin ((b - mu) / s) /\
  (forall x, a <= x <= b -> nle (lo i) (Fin x) /\ nle (Fin x) (hi i)).
Proof.
  intros (Hs & HL & HH & Hlt) Hb. destruct i as [l h cl cr]. unfold sampled, enforced. simpl in *.
  destruct l as [| |a|], h as [| |b|]; simpl in Hlt; try tauto; cbn.
  - exists (b - 10 * s), b. split; [lra|]. do 2 (split; [reflexivity|]).
    split; [f_equal; field; lra|]. split; [reflexivity|]. intros x Hx. split; [now right|].
    destruct (Req_dec x b) as [->|]; [now left|right; simpl; lra].
  - destruct Hb; simpl in *; congruence.
  - exists a, b. split; [lra|]. do 4 (split; [reflexivity|]). intros x Hx. split.
    + destruct (Req_dec x a) as [->|]; [now left|right; simpl; lra].
    + destruct (Req_dec x b) as [->|]; [now left|right; simpl; lra].
  - exists a, (a + 10 * s). split; [lra|]. do 3 (split; [reflexivity|]).
    split; [f_equal; field; lra|]. intros x Hx. split; [|now right].
    destruct (Req_dec x a) as [->|]; [now left|right; simpl; lra].
Qed.

Section Standard.
Variable j : sint.
Variables l h : R.
Hypothesis Hl : lo j = Fin l.
Hypothesis Hh : hi j = Fin h.
Hypothesis Hlh : l < h.

(** The limiting function is a multiple of the normal density that stays below one. *)
Lemma limiting_density : exists C, 0 < C /\ forall x, l <= x <= h -> limiting_function j l h x = Some (C * phi x) /\ C * phi x <= 1.
Proof.
  assert (Hp := sqrt_2PI_pos).
  assert (E : forall c x, exp ((c - x ^ 2) / 2) = exp (c / 2) * sqrt (2 * PI) * phi x).
  { intros c x. unfold phi. replace ((c - x ^ 2) / 2) with (c / 2 + - (x * x) / 2) by (simpl; field). rewrite exp_plus. field. lra. }
  assert (B : forall c x, c <= x ^ 2 -> exp (c / 2) * sqrt (2 * PI) * phi x <= 1).
  { intros c x H. rewrite <- E. rewrite <- exp_0. destruct (Req_dec ((c - x ^ 2) / 2) 0) as [->|Hn]; [lra|].
    apply Rlt_le, exp_increasing. lra. }
  assert (P : forall c, 0 < exp (c / 2) * sqrt (2 * PI)) by (intros c; apply Rmult_lt_0_compat; [apply exp_pos|auto]).
  unfold limiting_function. destruct (in_sint j 0) eqn:E0.
  - exists (exp (0 / 2) * sqrt (2 * PI)). split; auto. intros x Hx. rewrite <- E. split.
    + f_equal. f_equal. field.
    + rewrite E. apply B. apply pow2_ge_0.
  - destruct (Rleb_spec h 0) as [Hh0|Hh0].
    + exists (exp (h ^ 2 / 2) * sqrt (2 * PI)). split; auto. intros x Hx. rewrite <- E. split; auto. rewrite E. apply B. nra.
    + destruct (Rleb_spec 0 l) as [Hl0|Hl0].
      * exists (exp (l ^ 2 / 2) * sqrt (2 * PI)). split; auto. intros x Hx. rewrite <- E. split; auto. rewrite E. apply B. nra.
      * exfalso. unfold in_sint, above, below in E0. rewrite Hl, Hh in E0.
        destruct (lc j), (rc j); unfold Rleb, Rltb in E0;
          repeat match type of E0 with context [Rle_dec ?a ?b] => destruct (Rle_dec a b) | context [Rlt_dec ?a ?b] => destruct (Rlt_dec a b) end;
          try discriminate; lra.
Qed.

Lemma between r : 0 <= r <= 1 -> l <= uniform_between l h r <= h.
Proof. unfold uniform_between. nra. Qed.
End Standard.

(** The success of one row. *)
Definition row (i : sint) (mu s r v : R) : option R :=
  match lo (enforced i mu s), hi (enforced i mu s) with
  | Fin l, Fin h => match proposal (enforced i mu s) l h r v with Some (Some x) => Some (x * s + mu) | _ => None end
  | _, _ => None
  end.

Lemma attempt_row v0 i mu s r v : dist_ok (DTGauss v0 i mu s) -> bounded_somewhere i -> attempt i mu s r v = row i mu s r v.
Proof.
  intros Hok Hb. destruct (enforced_eq _ _ _ _ Hok Hb) as (a & b & Hab & E1 & E2 & E3 & E4 & _).
  assert (T : tg_sample 1 (fun k => if Nat.eqb k 0 then r else v) i mu s 1 0 = robert_rejection_sample 1 (fun k => if Nat.eqb k 0 then r else v) i mu s 1 0).
  { unfold tg_sample. destruct Hok as (_ & HL & HH & Hlt), Hb as [Hb|Hb]; destruct (lo i), (hi i); try reflexivity; congruence. }
  unfold attempt, row. rewrite T. unfold robert_rejection_sample. rewrite E3, E4. cbn.
  unfold helper. cbn. destruct (proposal (enforced i mu s) ((a - mu) / s) ((b - mu) / s) r v) as [[x|]|]; reflexivity.
Qed.

Lemma mass_below_level L : 0 <= L <= 1 -> is_RInt (fun v => if Rleb v L then 1 else 0) 0 1 L.
Proof.
  intros H. assert (K : forall a b c : R, is_RInt (fun _ : R => c) a b ((b - a) * c)) by (intros; apply (is_RInt_const (V := R_NormedModule))).
  assert (E : L = plus ((L - 0) * 1) ((1 - L) * 0)) by (unfold plus; simpl; ring).
  enough (Q : is_RInt (fun v => if Rleb v L then 1 else 0) 0 1 (plus ((L - 0) * 1) ((1 - L) * 0))) by now rewrite <- E in Q.
  apply (is_RInt_Chasles (V := R_NormedModule) _ 0 L 1).
  - apply (is_RInt_ext (fun _ => 1)); [|apply K]. intros x Hx. rewrite Rmin_left, Rmax_right in Hx by lra. destruct (Rleb_spec x L); [reflexivity|lra].
  - apply (is_RInt_ext (fun _ => 0)); [|apply K]. intros x Hx. rewrite Rmin_left, Rmax_right in Hx by lra. destruct (Rleb_spec x L); [lra|reflexivity].
Qed.

Lemma is_RInt_zero (a b : R) : is_RInt (fun _ : R => 0) a b 0.
Proof. assert (Q := is_RInt_const (V := R_NormedModule) a b 0). unfold scal in Q; simpl in Q; unfold mult in Q; simpl in Q. now rewrite Rmult_0_r in Q. Qed.

Theorem C64_law v i mu s : dist_ok (DTGauss v i mu s) -> bounded_somewhere i ->
  sample_law i mu s (fun y => cdfR (DTGauss v (sampled i s) mu s) (Fin y)).
Proof.
  intros Hok Hb. destruct (enforced_eq _ _ _ _ Hok Hb) as (a & b & Hab & E1 & E2 & E3 & E4 & _).
  assert (Hs : 0 < s) by apply Hok.
  set (l := (a - mu) / s) in *. set (h := (b - mu) / s) in *.
  assert (Hlh : l < h) by (apply Rmult_lt_compat_r; [now apply Rinv_0_lt_compat|lra]).
  destruct (limiting_density _ l h E3 E4) as (C & HC & Hlim).
  set (G := fun r => C / (h - l) * PhiR (uniform_between l h r)).
  set (gr := fun r => C * phi (uniform_between l h r)).
  assert (HG : forall x, is_derive G x (gr x)).
  { intros x. unfold G, gr, uniform_between. auto_derive.
    - exists (phi (l + (h - l) * x)). apply PhiR_derive.
    - replace (Derive (fun x0 => PhiR x0) (l + (h - l) * x)) with (phi (l + (h - l) * x)) by (symmetry; apply is_derive_unique, PhiR_derive).
      field. lra. }
  assert (Hc : forall x, continuous gr x).
  { intros x. unfold gr, uniform_between. apply (ex_derive_continuous (V := R_NormedModule)). unfold phi. auto_derive. assert (Q := sqrt_2PI_pos). lra. }
  assert (HI : forall x y, is_RInt gr x y (G y - G x)).
  { intros x y. apply (is_RInt_derive (V := R_CompleteNormedModule) G gr); intros; auto. }
  assert (Inner : forall P r, 0 <= r <= 1 ->
    is_RInt (fun v => match attempt i mu s r v with Some w => if P w : bool then 1 else 0 | None => 0 end) 0 1
      (if P (uniform_between l h r * s + mu) then gr r else 0)).
  { intros P r Hr. destruct (Hlim _ (between l h Hlh r Hr)) as [El Hle].
    assert (Hpos : 0 < gr r) by (apply Rmult_lt_0_compat; [auto|apply phi_pos]).
    apply (is_RInt_ext (fun v0 => if P (uniform_between l h r * s + mu) then (if Rleb v0 (gr r) then 1 else 0) else 0)).
    - intros v0 _. rewrite (attempt_row v) by auto. unfold row. rewrite E3, E4. unfold proposal. rewrite El.
      replace (uniform_between 0 1 v0) with v0 by (unfold uniform_between; ring). fold (gr r).
      destruct (Rleb v0 (gr r)), (P (uniform_between l h r * s + mu)); reflexivity.
    - destruct (P (uniform_between l h r * s + mu)).
      + apply mass_below_level. unfold gr in *. lra.
      + apply is_RInt_zero. }
  assert (U0 : uniform_between l h 0 = l) by (unfold uniform_between; ring).
  assert (U1 : uniform_between l h 1 = h) by (unfold uniform_between; ring).
  assert (HP : PhiR l < PhiR h) by now apply PhiR_strict.
  assert (Hq : 0 < G 1 - G 0).
  { unfold G. rewrite U0, U1. rewrite <- Rmult_minus_distr_l. apply Rmult_lt_0_compat; [|lra].
    apply Rmult_lt_0_compat; auto. apply Rinv_0_lt_compat. lra. }
  exists (G 1 - G 0). split; auto. split.
  - exists gr. split; [|apply HI]. intros r Hr. exact (Inner (fun _ => true) r Hr).
  - intros y. exists (fun r => if Rleb (uniform_between l h r * s + mu) y then gr r else 0). split.
    { intros r Hr. exact (Inner (fun w => Rleb w y) r Hr). }
    set (z := (y - mu) / s). set (c := (z - l) / (h - l)).
    assert (Hz : y = z * s + mu) by (unfold z; field; lra).
    assert (Hcz : z = uniform_between l h c) by (unfold c, uniform_between; field; lra).
    assert (Hcmp : forall r, uniform_between l h r * s + mu - y = (r - c) * ((h - l) * s)).
    { intros r. rewrite Hz at 1. rewrite Hcz at 1. unfold uniform_between. ring. }
    assert (Hk : 0 < (h - l) * s) by (apply Rmult_lt_0_compat; lra).
    assert (R1 : is_RInt (fun r => if negb (Rleb (uniform_between l h r * s + mu) y) then gr r else 0) 0 1 (G (Rmax c 1) - G (Rmax c 0))).
    { apply right_part; auto; [| |lra].
      - intros x Hx. specialize (Hcmp x). destruct (Rleb_spec (uniform_between l h x * s + mu) y); auto. exfalso. nra.
      - intros x Hx. specialize (Hcmp x). destruct (Rleb_spec (uniform_between l h x * s + mu) y); auto. exfalso. nra. }
    assert (R2 := is_RInt_minus (V := R_NormedModule) _ _ _ _ _ _ (HI 0 1) R1).
    assert (Ok' : dist_ok (DTGauss v (sampled i s) mu s)).
    { split; [auto|]. rewrite E1, E2. split; [congruence|]. split; [congruence|exact Hab]. }
    assert (Ea : a = l * s + mu) by (unfold l; field; lra).
    assert (Eb : b = h * s + mu) by (unfold h; field; lra).
    assert (Hcdf : G 1 - G 0 - (G (Rmax c 1) - G (Rmax c 0)) = (G 1 - G 0) * cdfR (DTGauss v (sampled i s) mu s) (Fin y)).
    { destruct (Rle_lt_dec c 0) as [H0|H0].
      - rewrite !Rmax_right by lra. rewrite tg_cdf_left; auto; [ring|]. rewrite E1.
        assert (y <= a) by (rewrite Ea; specialize (Hcmp 0); rewrite U0 in Hcmp; nra).
        destruct (Req_dec y a) as [->|]; [now left|right; simpl; lra].
      - destruct (Rle_lt_dec 1 c) as [H1|H1].
        + rewrite !Rmax_left by lra. rewrite tg_cdf_right; auto; [ring|]. rewrite E2.
          assert (b <= y) by (rewrite Eb; specialize (Hcmp 1); rewrite U1 in Hcmp; nra).
          destruct (Req_dec y b) as [->|]; [now left|right; simpl; lra].
        + rewrite Rmax_right, Rmax_left by lra.
          rewrite tg_cdf_in; auto.
          * rewrite E1, E2. cbn [gcdfR]. fold l h z. unfold G. rewrite U0, U1, <- Hcz. field. split; lra.
          * rewrite E1. right. simpl. rewrite Ea. specialize (Hcmp 0). rewrite U0 in Hcmp. nra.
          * rewrite E2. right. simpl. rewrite Eb. specialize (Hcmp 1). rewrite U1 in Hcmp. nra. }
    rewrite <- Hcdf. refine (is_RInt_ext _ _ _ _ _ _ R2).
    intros x _. unfold minus, plus, opp; simpl. destruct (Rleb (uniform_between l h x * s + mu) y); simpl; ring.
Qed.

(** ** The loop *)
Definition found {A} (o : option A) : list A := match o with Some x => [x] | None => [] end.
Definition both (q : nat * nat) : list nat := [fst q; snd q].

Lemma pair_perm {A B} (f k : A -> B) l : Permutation (flat_map (fun a => [f a; k a]) l) (map f l ++ map k l).
Proof.
  induction l as [|a l IH]; simpl; auto. constructor. apply Permutation_cons_app. exact IH.
Qed.

Lemma seq_offset m : forall p, map (fun k => (p + k)%nat) (seq 0 m) = seq p m.
Proof.
  induction m as [|m IH]; intros p; simpl; auto. f_equal; [lia|]. rewrite <- seq_shift, map_map.
  rewrite <- (IH (S p)). apply map_ext. intros k. lia.
Qed.

Section Loop.
Variable j : sint.
Variables low high : R.
Variable rnd : nat -> R.
Definition std (q : nat * nat) : list R := match proposal j low high (rnd (fst q)) (rnd (snd q)) with Some (Some x) => [x] | _ => [] end.
Definition rows (p m : nat) : list (nat * nat) := map (fun k => ((p + k)%nat, (p + m + k)%nat)) (seq 0 m).

Lemma rows_perm p m : Permutation (flat_map both (rows p m)) (seq p (2 * m)).
Proof.
  unfold rows. rewrite flat_map_concat_map, map_map, <- flat_map_concat_map.
  replace (2 * m)%nat with (m + m)%nat by lia. rewrite seq_app, <- (seq_offset m p), <- (seq_offset m (p + m)). apply (pair_perm (fun k => (p + k)%nat) (fun k => (p + m + k)%nat)).
Qed.
Lemma rows_length p m : length (rows p m) = m.
Proof. unfold rows. now rewrite map_length, seq_length. Qed.

Lemma std_length qs : (length (flat_map std qs) <= length qs)%nat.
Proof. induction qs as [|q qs IH]; simpl; auto. rewrite app_length. unfold std at 1. destruct (proposal _ _ _ _ _) as [[x|]|]; simpl; lia. Qed.

Lemma helper_rows m p out : helper rnd j low high m p = Some out -> out = flat_map std (rows p m).
Proof.
  unfold helper, rows. destruct (mapM _ _) as [l|] eqn:E; [|discriminate]. intros H. injection H as <-.
  apply mapM_Forall2 in E. rewrite flat_map_concat_map, (flat_map_concat_map std), map_map. f_equal.
  induction E as [|k o ks os Ho _ IH]; simpl; auto. f_equal; auto. unfold std. simpl. rewrite Ho. destruct o; reflexivity.
Qed.

Lemma loop_some fuel : forall n p acc out p', rejection_loop fuel rnd j low high n p acc = Some (out, p') -> (length acc <= n)%nat ->
  length out = n /\ (p <= p')%nat /\ exists qs, Permutation (flat_map both qs) (seq p (p' - p)) /\ out = acc ++ flat_map std qs.
Proof.
  induction fuel as [|f IH]; intros n p acc out p' H Hn; simpl in H; destruct (Nat.ltb_spec (length acc) n) as [Hlt|Hge].
  - discriminate.
  - injection H as <- <-. split; [lia|]. split; [lia|]. exists []. rewrite Nat.sub_diag. split; [constructor|now rewrite app_nil_r].
  - destruct (helper rnd j low high (n - length acc) p) as [l|] eqn:E; [|discriminate].
    apply helper_rows in E.
    assert (Hl : (length l <= n - length acc)%nat) by (rewrite E; etransitivity; [apply std_length|now rewrite rows_length]).
    destruct (IH _ _ _ _ _ H) as (H1 & H2 & qs & Hp & Ho); [rewrite app_length; lia|].
    split; auto. set (m := (n - length acc)%nat) in *. split; [lia|]. exists (rows p m ++ qs). split.
    + rewrite flat_map_app. replace (p' - p)%nat with (2 * m + (p' - (p + 2 * m)))%nat by lia. rewrite seq_app.
      apply Permutation_app; auto. apply rows_perm.
    + rewrite flat_map_app, app_assoc, <- E. exact Ho.
  - injection H as <- <-. split; [lia|]. split; [lia|]. exists []. rewrite Nat.sub_diag. split; [constructor|now rewrite app_nil_r].
Qed.

Hypothesis total : forall a b, proposal j low high (rnd a) (rnd b) <> None.

Lemma helper_total m p : exists out, helper rnd j low high m p = Some out.
Proof.
  unfold helper. generalize (seq 0 m). intros ks.
  assert (E : exists l, mapM (fun k => proposal j low high (rnd (p + k)%nat) (rnd (p + m + k)%nat)) ks = Some l).
  { induction ks as [|k ks (l & IH)]; simpl; [eauto|]. assert (T := total (p + k) (p + m + k)).
    destruct (proposal j low high (rnd (p + k)%nat) (rnd (p + m + k)%nat)); [|congruence]. simpl in IH. rewrite IH. eauto. }
  destruct E as (l & ->). eauto.
Qed.

Lemma loop_none fuel : forall n p acc, rejection_loop fuel rnd j low high n p acc = None ->
  exists qs, Permutation (flat_map both qs) (seq p (2 * length qs)) /\ (fuel <= length qs)%nat /\ (length acc + length (flat_map std qs) < n)%nat.
Proof.
  induction fuel as [|f IH]; intros n p acc H; simpl in H; destruct (Nat.ltb_spec (length acc) n) as [Hlt|Hge]; try discriminate.
  - exists []. simpl. split; [constructor|]. lia.
  - destruct (helper_total (n - length acc) p) as (l & E). rewrite E in H. apply helper_rows in E.
    destruct (IH _ _ _ H) as (qs & Hp & Hf & Hc). set (m := (n - length acc)%nat) in *.
    exists (rows p m ++ qs). rewrite app_length, rows_length, !flat_map_app, app_length. rewrite app_length, E in Hc.
    split; [|split; lia].
    replace (2 * (m + length qs))%nat with (2 * m + 2 * length qs)%nat by lia. rewrite seq_app. apply Permutation_app; auto. apply rows_perm.
Qed.
End Loop.

(** ** Theorems about whole samples *)

(** The random numbers [a] and [b] of the attempts [qs] are the next numbers of the stream, each used once. *)
Definition consumes (qs : list (nat * nat)) (p : nat) : Prop := Permutation (flat_map both qs) (seq p (2 * length qs)).

Definition successes (i : sint) (mu s : R) (rnd : nat -> R) (qs : list (nat * nat)) : list R :=
  flat_map (fun q => found (attempt i mu s (rnd (fst q)) (rnd (snd q)))) qs.

Lemma tg_sample_robert v fuel rnd i mu s n p : dist_ok (DTGauss v i mu s) -> bounded_somewhere i ->
  tg_sample fuel rnd i mu s n p = robert_rejection_sample fuel rnd i mu s n p.
Proof.
  unfold tg_sample. intros (_ & HL & HH & Hlt) [Hb|Hb]; destruct (lo i), (hi i); try reflexivity; congruence.
Qed.

Lemma successes_std v i mu s rnd l h qs : dist_ok (DTGauss v i mu s) -> bounded_somewhere i -> lo (enforced i mu s) = Fin l -> hi (enforced i mu s) = Fin h ->
  successes i mu s rnd qs = map (fun x => x * s + mu) (flat_map (std (enforced i mu s) l h rnd) qs).
Proof.
  intros Hok Hb El Eh. induction qs as [|q qs IH]; simpl; auto. unfold successes in *. simpl. rewrite map_app. f_equal; auto.
  rewrite (attempt_row v) by auto. unfold row, std. rewrite El, Eh. destruct (proposal _ _ _ _ _) as [[x|]|]; reflexivity.
Qed.

(** The returned list has the requested length and consists of the successful ones of independent attempts. *)
Theorem C64_samples v i mu s fuel rnd n p l p' : dist_ok (DTGauss v i mu s) -> bounded_somewhere i ->
  tg_sample fuel rnd i mu s n p = Some (l, p') ->
  length l = n /\ exists qs, consumes qs p /\ p' = (p + 2 * length qs)%nat /\ l = successes i mu s rnd qs.
Proof.
  intros Hok Hb H. rewrite (tg_sample_robert v) in H by auto.
  destruct (enforced_eq _ _ _ _ Hok Hb) as (a & b & Hab & E1 & E2 & E3 & E4 & _).
  unfold robert_rejection_sample in H. rewrite E3, E4 in H.
  destruct (rejection_loop fuel rnd _ _ _ n p []) as [[out p'']|] eqn:E; [|discriminate]. injection H as <- <-.
  destruct (loop_some _ _ _ _ _ _ _ _ _ _ E) as (Hl & Hp & qs & Hperm & Ho); [simpl; lia|].
  split; [now rewrite map_length|]. exists qs.
  assert (Hlen : length (flat_map both qs) = (2 * length qs)%nat) by (clear; induction qs; simpl in *; lia).
  assert (Hlen' := Permutation_length Hperm). rewrite seq_length, Hlen in Hlen'. unfold consumes. rewrite Hlen'. split; auto. split; [lia|].
  rewrite (successes_std v _ _ _ _ _ _ _ Hok Hb E3 E4). now rewrite Ho.
Qed.

Definition unit_stream (rnd : nat -> R) : Prop := forall k, 0 <= rnd k <= 1.

Lemma row_within v i mu s r u w : dist_ok (DTGauss v i mu s) -> bounded_somewhere i -> 0 <= r <= 1 -> attempt i mu s r u = Some w ->
  exists a b, lo (sampled i s) = Fin a /\ hi (sampled i s) = Fin b /\ a <= w <= b.
Proof.
  intros Hok Hb Hr H. destruct (enforced_eq _ _ _ _ Hok Hb) as (a & b & Hab & E1 & E2 & E3 & E4 & _).
  exists a, b. split; auto. split; auto. rewrite (attempt_row v) in H by auto. unfold row in H. rewrite E3, E4 in H. unfold proposal in H.
  destruct (limiting_function _ _ _ _); [|discriminate]. destruct (Rleb _ _); [|discriminate]. injection H as <-.
  assert (Hs : 0 < s) by apply Hok.
  assert (Hlt : (a - mu) / s < (b - mu) / s) by (apply Rmult_lt_compat_r; [now apply Rinv_0_lt_compat|lra]).
  destruct (between _ _ Hlt r Hr) as [B1 B2]. set (x := uniform_between _ _ r) in *.
  assert (Ea : a = (a - mu) / s * s + mu) by (field; lra). assert (Eb : b = (b - mu) / s * s + mu) by (field; lra).
  split; [rewrite Ea|rewrite Eb]; apply Rplus_le_compat_r, Rmult_le_compat_r; lra.
Qed.

(** Every sample lies between the bounds of the interval. *)
Theorem C64_within v i mu s fuel rnd n p l p' : dist_ok (DTGauss v i mu s) -> bounded_somewhere i -> unit_stream rnd ->
  tg_sample fuel rnd i mu s n p = Some (l, p') -> forall w, In w l -> nle (lo i) (Fin w) /\ nle (Fin w) (hi i).
Proof.
  intros Hok Hb Hu H w Hw. destruct (C64_samples _ _ _ _ _ _ _ _ _ _ Hok Hb H) as (_ & qs & _ & _ & ->).
  apply in_flat_map in Hw. destruct Hw as (q & _ & Hw). destruct (attempt i mu s (rnd (fst q)) (rnd (snd q))) as [w'|] eqn:E; simpl in Hw; [|tauto].
  destruct Hw as [->|[]]. destruct (row_within _ _ _ _ _ _ _ Hok Hb (Hu _) E) as (a & b & Ea & Eb & Hab).
  destruct (enforced_eq _ _ _ _ Hok Hb) as (a' & b' & _ & E1 & E2 & _ & _ & Hin). apply Hin.
  assert (a = a') by congruence. assert (b = b') by congruence. subst. auto.
Qed.

(** The only way of not returning is that too few attempts succeed: no exception is raised. *)
Theorem C64_no_error v i mu s fuel rnd n p : dist_ok (DTGauss v i mu s) -> bounded_somewhere i -> unit_stream rnd ->
  tg_sample fuel rnd i mu s n p = None ->
  exists qs, consumes qs p /\ (fuel <= length qs)%nat /\ (length (successes i mu s rnd qs) < n)%nat.
Proof.
  intros Hok Hb Hu H. rewrite (tg_sample_robert v) in H by auto.
  destruct (enforced_eq _ _ _ _ Hok Hb) as (a & b & Hab & E1 & E2 & E3 & E4 & _).
  unfold robert_rejection_sample in H. rewrite E3, E4 in H.
  assert (Hs : 0 < s) by apply Hok.
  assert (Hlt : (a - mu) / s < (b - mu) / s) by (apply Rmult_lt_compat_r; [now apply Rinv_0_lt_compat|lra]).
  destruct (limiting_density _ _ _ E3 E4) as (C & _ & Hlim).
  assert (T : forall x y, proposal (enforced i mu s) ((a - mu) / s) ((b - mu) / s) (rnd x) (rnd y) <> None).
  { intros x y. unfold proposal. destruct (Hlim _ (between _ _ Hlt _ (Hu x))) as [-> _]. discriminate. }
  destruct (rejection_loop fuel rnd _ _ _ n p []) as [[out p'']|] eqn:E; [discriminate|].
  destruct (loop_none _ _ _ _ T _ _ _ _ E) as (qs & Hp & Hf & Hc). exists qs. split; auto. split; auto.
  rewrite (successes_std v _ _ _ _ _ _ _ Hok Hb E3 E4), map_length. exact Hc.
Qed.

(** With two finite bounds the law is that of the distribution. *)
Theorem C64_law_partial v i mu s : dist_ok (DTGauss v i mu s) -> lo i <> NInf -> hi i <> PInf ->
  sample_law i mu s (fun y => cdfR (DTGauss v i mu s) (Fin y)).
Proof.
  intros Hok H1 H2. assert (Q := C64_law v i mu s Hok (or_introl H1)).
  replace (sampled i s) with i in Q; auto. unfold sampled. destruct (lo i), (hi i); congruence.
Qed.

(** ** Refutation for one infinite bound *)
Lemma success_unique i mu s P m m' : success i mu s P m -> success i mu s P m' -> m = m'.
Proof.
  intros (F & H1 & H2) (F' & H1' & H2').
  assert (E : is_RInt F 0 1 m').
  { apply (is_RInt_ext F'); auto. intros r Hr. rewrite Rmin_left, Rmax_right in Hr by lra.
    assert (Hr' : 0 <= r <= 1) by lra.
    assert (A := is_RInt_unique _ _ _ _ (H1 r Hr')). assert (B := is_RInt_unique _ _ _ _ (H1' r Hr')).
    transitivity (RInt (fun v => match attempt i mu s r v with Some w => if P w : bool then 1 else 0 | None => 0 end) 0 1); [symmetry; exact B|exact A]. }
  assert (A := is_RInt_unique _ _ _ _ H2). assert (B := is_RInt_unique _ _ _ _ E). transitivity (RInt F 0 1); [symmetry; exact A|exact B].
Qed.

Lemma law_unique i mu s c c' : sample_law i mu s c -> sample_law i mu s c' -> forall y, c y = c' y.
Proof.
  intros (q & Hq & T & L) (q' & _ & T' & L') y. assert (q = q') by exact (success_unique _ _ _ _ _ _ T T'). subst q'.
  assert (E := success_unique _ _ _ _ _ _ (L y) (L' y)). apply Rmult_eq_reg_l with q; lra.
Qed.

(** With one infinite bound the law is never that of the distribution. *)
Theorem C64_one_sided v i mu s : dist_ok (DTGauss v i mu s) -> bounded_somewhere i -> lo i = NInf \/ hi i = PInf ->
  ~ sample_law i mu s (fun y => cdfR (DTGauss v i mu s) (Fin y)).
Proof.
  intros Hok Hb Hinf H. assert (E := law_unique _ _ _ _ _ H (C64_law v i mu s Hok Hb)). simpl in E.
  destruct (enforced_eq _ _ _ _ Hok Hb) as (a & b & Hab & E1 & E2 & _ & _ & Hin).
  assert (Hs : 0 < s) by apply Hok.
  assert (Ok' : dist_ok (DTGauss v (sampled i s) mu s)).
  { split; [auto|]. rewrite E1, E2. split; [congruence|]. split; [congruence|exact Hab]. }
  assert (Hlt := gcdfR_strict mu s (lo i) (hi i) Hs (proj2 (proj2 (proj2 Hok)))).
  destruct Hinf as [El|Eh].
  - specialize (E a). change (cdfR (DTGauss v i mu s) (Fin a) = cdfR (DTGauss v (sampled i s) mu s) (Fin a)) in E.
    rewrite (tg_cdf_left v (sampled i s)) in E; [|auto|rewrite E1; now left].
    destruct (Hin a) as [B1 B2]; [lra|]. rewrite tg_cdf_in in E by auto.
    assert (L1 := gcdfR_strict mu s (lo i) (Fin a) Hs). rewrite El in L1 at 1. specialize (L1 I).
    apply Rmult_integral in E. destruct E as [E|E]; [lra|]. apply Rinv_neq_0_compat in E; lra.
  - specialize (E b). change (cdfR (DTGauss v i mu s) (Fin b) = cdfR (DTGauss v (sampled i s) mu s) (Fin b)) in E.
    rewrite (tg_cdf_right v (sampled i s)) in E; [|auto|rewrite E2; now left].
    destruct (Hin b) as [B1 B2]; [lra|]. rewrite tg_cdf_in in E by auto.
    assert (L1 := gcdfR_strict mu s (Fin b) (hi i) Hs). rewrite Eh in L1 at 1. specialize (L1 I).
    apply (f_equal (fun x => x * (gcdfR mu s (hi i) - gcdfR mu s (lo i)))) in E. field_simplify in E; lra.
Qed.

Definition far_left : sint := mkSint (Fin (-20)) PInf true false.
Example far_left_ok : dist_ok (DTGauss 0 far_left 0 1) /\ bounded_somewhere far_left.
Proof. split; [|left; discriminate]. split; [lra|]. split; [discriminate|]. split; [discriminate|exact I]. Qed.

Theorem C64_full_refuted : ~ C64_full.
Proof.
  intros H. destruct far_left_ok as [Hok Hb]. exact (C64_one_sided 0%nat _ _ _ Hok Hb (or_intror eq_refl) (H 0%nat _ _ _ Hok Hb)).
Qed.

Lemma PhiR_0 : PhiR 0 = / 2.
Proof. unfold PhiR. assert (E := RInt_point (V := R_CompleteNormedModule) 0 phi). change (RInt phi 0 0 = 0) in E. rewrite E. ring. Qed.

(** How wrong it can be: if the finite bound is at least ten standard deviations below the mean, all samples are below the
    mean, although the distribution gives that less than one half. *)
Theorem C64_far_off v i mu s a : dist_ok (DTGauss v i mu s) -> lo i = Fin a -> hi i = PInf -> a + 10 * s <= mu ->
  (forall fuel rnd n p l p', unit_stream rnd -> tg_sample fuel rnd i mu s n p = Some (l, p') -> Forall (fun w => w <= mu) l) /\
  cdfR (DTGauss v i mu s) (Fin mu) < / 2.
Proof.
  intros Hok El Eh Ha. assert (Hs : 0 < s) by apply Hok. assert (Hb : bounded_somewhere i) by (left; congruence). split.
  - intros fuel rnd n p l p' Hu H. apply Forall_forall. intros w Hw.
    destruct (C64_samples _ _ _ _ _ _ _ _ _ _ Hok Hb H) as (_ & qs & _ & _ & ->).
    apply in_flat_map in Hw. destruct Hw as (q & _ & Hw). destruct (attempt i mu s (rnd (fst q)) (rnd (snd q))) as [w'|] eqn:E; simpl in Hw; [|tauto].
    destruct Hw as [->|[]]. destruct (row_within _ _ _ _ _ _ _ Hok Hb (Hu _) E) as (a' & b' & Ea & Eb & Hab).
    unfold sampled in Eb. rewrite El, Eh in Eb. simpl in Eb. injection Eb as <-. lra.
  - rewrite tg_cdf_in; auto; [|rewrite El; right; simpl; lra|rewrite Eh; now right].
    rewrite El, Eh. cbn [gcdfR Phi]. replace ((mu - mu) / s) with 0 by (field; lra). rewrite PhiR_0.
    assert (B := PhiR_range_strict ((a - mu) / s)). assert (L : PhiR ((a - mu) / s) < / 2).
    { rewrite <- PhiR_0. apply PhiR_strict. assert (0 < / s) by now apply Rinv_0_lt_compat. unfold Rdiv. nra. }
    apply Rmult_lt_reg_r with (1 - PhiR ((a - mu) / s)); [lra|]. field_simplify; lra.
Qed.

(** ** Examples *)
Definition around : sint := mkSint (Fin 3) (Fin 7) true false.
Example around_ok : dist_ok (DTGauss 0 around 5 2) /\ lo around <> NInf /\ hi around <> PInf.
Proof. split; [|split; discriminate]. split; [lra|]. split; [discriminate|]. split; [discriminate|simpl; lra]. Qed.

(** A constant stream of halves proposes the mean, which is always accepted. *)
Example around_sample : tg_sample 1 (fun _ => / 2) around 5 2 3 0 = Some ([5; 5; 5], 6%nat).
Proof.
  assert (E : forall p, proposal (enforced around 5 2) ((3 - 5) / 2) ((7 - 5) / 2) (/ 2) p = Some (if Rleb (uniform_between 0 1 p) 1 then Some 0 else None)).
  { intros p. unfold proposal. replace (uniform_between ((3 - 5) / 2) ((7 - 5) / 2) (/ 2)) with 0 by (unfold uniform_between; field).
    unfold limiting_function, in_sint, above, below. cbn [enforced around lo hi lc rc zscore].
    destruct (Rleb_spec ((3 - 5) / 2) 0); [|lra]. destruct (Rltb_spec 0 ((7 - 5) / 2)); [|lra]. cbn [andb].
    replace (0 ^ 2 / -2) with 0 by field. rewrite exp_0. reflexivity. }
  unfold tg_sample. cbn [lo hi around]. unfold robert_rejection_sample. cbn [enforced lo hi around zscore lc rc].
  cbn [rejection_loop length Nat.ltb Nat.leb Nat.sub]. unfold helper. cbn [seq mapM].
  change (mkSint (Fin ((3 - 5) / 2)) (Fin ((7 - 5) / 2)) true false) with (enforced around 5 2). rewrite E.
  destruct (Rleb_spec (uniform_between 0 1 (/ 2)) 1) as [_|H]; [|exfalso; unfold uniform_between in H; lra]. simpl.
  replace (0 * 2 + 5) with 5 by ring. reflexivity.
Qed.

Print Assumptions C64_law.
Print Assumptions C64_samples.
Print Assumptions C64_within.
Print Assumptions C64_no_error.
Print Assumptions C64_law_partial.
Print Assumptions C64_one_sided.
Print Assumptions C64_full_refuted.
Print Assumptions C64_far_off.
