(** * Property C60: Monte-Carlo metrics *)
From Coq Require Import List Arith Bool Lia Reals Lra.
From Verif Require Import Num Interval Graph Circuit EvalFacts Dist MonteCarlo.
Import ListNotations.
Local Open Scope R_scope.
Local Set Bullet Behavior "Strict Subproofs".

Section Facts.
Variable X : Type.

(** ** Specification *)

(** [n] of the samples satisfy [P]. *)
Inductive count (P : X -> Prop) : list X -> nat -> Prop :=
| count_nil : count P [] 0
| count_yes x l n : P x -> count P l n -> count P (x :: l) (S n)
| count_no x l n : ~ P x -> count P l n -> count P (x :: l) n.

(** [x] is more likely under [p] than under [q] by more than the tolerance. *)
Definition higher (p q : X -> option num) (tolerance : R) (x : X) : Prop :=
  exists a b, p x = Some a /\ q x = Some b /\ nlt (Fin tolerance) (nsub a b).

(** Both models answer for every sample. *)
Definition answer_all (p q : X -> option num) (l : list X) : Prop := Forall (fun x => p x <> None /\ q x <> None) l.

Lemma count_le P l n : count P l n -> (n <= length l)%nat.
Proof. induction 1; simpl; lia. Qed.

Lemma mapM_all {A B} (f : A -> option B) l : Forall (fun x => f x <> None) l -> exists r, mapM f l = Some r /\ Forall2 (fun x y => f x = Some y) l r.
Proof.
  induction 1 as [|x l H _ (r & E & F)]; [exists []; split; [reflexivity|constructor]|].
  destruct (f x) as [y|] eqn:Ey; [|now destruct H]. exists (y :: r). cbn [mapM]. rewrite Ey, E. split; [reflexivity|constructor; auto].
Qed.

Lemma ngtb_higher a t : ngtb a (Fin t) = true <-> nlt (Fin t) a.
Proof.
  destruct a; cbn; split; intros H; try discriminate; try tauto.
  - unfold Rltb in H. destruct (Rlt_dec _ _); [assumption|discriminate].
  - unfold Rltb. destruct (Rlt_dec _ _); [reflexivity|contradiction].
Qed.

Lemma bmean_true l : l <> [] -> bmean l = Fin (Rsum (map (fun b : bool => if b then 1 else 0) l) / INR (length l)).
Proof.
  intros Hl. unfold bmean, nmean. destruct l as [|b l]; [now destruct Hl|]. cbn [map]. rewrite <- map_cons with (f := fun b : bool => Fin (if b then 1 else 0)).
  set (m := b :: l). assert (E : nsum (map (fun b : bool => Fin (if b then 1 else 0)) m) = Fin (Rsum (map (fun b : bool => if b then 1 else 0) m))).
  { clearbody m. induction m as [|c m IH]; [reflexivity|]. cbn [map]. unfold nsum in *. cbn [fold_right]. rewrite IH. reflexivity. }
  rewrite E. unfold ndiv. rewrite map_length. destruct (Req_EM_T (INR (length m)) 0) as [Z|_]; [|reflexivity].
  exfalso. revert Z. apply not_0_INR. unfold m. simpl. lia.
Qed.

(** The share of the samples that are more likely under [p]. *)
Lemma share_count p q tolerance l : l <> [] -> answer_all p q l ->
  exists n, count (higher p q tolerance) l n /\ share X p q tolerance l = Some (Fin (INR n / INR (length l))).
Proof.
  intros Hl Ha. unfold share.
  destruct (mapM_all p l) as (a & -> & Fa); [eapply Forall_impl; [|exact Ha]; simpl; tauto|].
  destruct (mapM_all q l) as (b & -> & Fb); [eapply Forall_impl; [|exact Ha]; simpl; tauto|].
  set (f := fun ab : num * num => ngtb (nsub (fst ab) (snd ab)) (Fin tolerance)).
  assert (Hlen : length (map f (combine a b)) = length l).
  { apply Forall2_length_eq in Fa, Fb. rewrite map_length, combine_length. lia. }
  rewrite bmean_true by (intros E; rewrite E in Hlen; destruct l; [now destruct Hl|discriminate]). rewrite Hlen.
  assert (C : exists n, count (higher p q tolerance) l n /\ Rsum (map (fun b : bool => if b then 1 else 0) (map f (combine a b))) = INR n).
  { clear Hlen Hl Ha. revert b Fb. induction Fa as [|x y l a Ex Fa IH]; intros b Fb; inversion Fb as [|? z ? b' Ez Fb']; subst.
    - exists 0%nat. split; [constructor|reflexivity].
    - destruct (IH b' Fb') as (n & C & E). cbn [combine map]. unfold Rsum in *. cbn [fold_right]. rewrite E.
      destruct (f (y, z)) eqn:Ef.
      + exists (S n). split; [|rewrite S_INR; ring]. constructor; [|exact C]. exists y, z. split; [exact Ex|]. split; [exact Ez|]. now apply ngtb_higher.
      + exists n. split; [|ring]. constructor; [|exact C]. intros (y' & z' & E1 & E2 & H). rewrite Ex in E1. rewrite Ez in E2. injection E1 as <-. injection E2 as <-.
        apply ngtb_higher in H. unfold f in Ef. cbn [fst snd] in Ef. congruence. }
  destruct C as (n & C & E). exists n. split; [exact C|]. now rewrite E.
Qed.

Lemma share_range n (l : list X) : l <> [] -> (n <= length l)%nat -> 0 <= INR n / INR (length l) <= 1.
Proof.
  intros Hl Hn. assert (0 < INR (length l)) by (apply lt_0_INR; destruct l; [now destruct Hl|simpl; lia]).
  assert (0 <= INR n) by apply pos_INR. assert (INR n <= INR (length l)) by now apply le_INR.
  split; [apply Rmult_le_pos; [assumption|left; now apply Rinv_0_lt_compat]|]. apply Rmult_le_reg_r with (INR (length l)); [assumption|].
  unfold Rdiv. rewrite Rmult_assoc, Rinv_l by lra. lra.
Qed.

(** ** C60 *)

(** The estimate is twice the difference of two frequencies, whatever the samples and the likelihoods (infinite and nan
    ones included) are: the frequencies are in [0, 1], the estimate in [-2, 2]. *)
Theorem C60_bounded p q tolerance samples_p samples_q : samples_p <> [] -> samples_q <> [] -> answer_all p q samples_p -> answer_all p q samples_q ->
  exists n m, count (higher p q tolerance) samples_p n /\ count (higher p q tolerance) samples_q m /\
    let a := INR n / INR (length samples_p) in let b := INR m / INR (length samples_q) in
    0 <= a <= 1 /\ 0 <= b <= 1 /\ l1_metric X p q tolerance samples_p samples_q = Some (Fin (2 * (a - b))) /\ -2 <= 2 * (a - b) <= 2.
Proof.
  intros Hp Hq Ap Aq. destruct (share_count p q tolerance samples_p Hp Ap) as (n & Cn & En), (share_count p q tolerance samples_q Hq Aq) as (m & Cm & Em).
  exists n, m. split; [exact Cn|]. split; [exact Cm|]. cbv zeta.
  assert (R1 := share_range n samples_p Hp (count_le _ _ _ Cn)). assert (R2 := share_range m samples_q Hq (count_le _ _ _ Cm)).
  split; [exact R1|]. split; [exact R2|]. split; [|lra]. unfold l1_metric. rewrite En, Em. reflexivity.
Qed.

(** Without samples there is no estimate; a likelihood that raises makes the estimate raise. *)
Theorem C60_no_samples p q tolerance : l1_metric X p q tolerance [] [] = Some NaN.
Proof. reflexivity. Qed.

Theorem C60_raises p q tolerance samples_p samples_q x : In x (samples_p ++ samples_q) -> p x = None \/ q x = None ->
  l1_metric X p q tolerance samples_p samples_q = None.
Proof.
  assert (M : forall f l, In x l -> f x = None -> mapM f l = @None (list num)).
  { intros f l. induction l as [|y l IH]; [intros []|]. intros [->|H] E; cbn [mapM]; [now rewrite E|]. rewrite (IH H E). destruct (f y); reflexivity. }
  intros Hin H. unfold l1_metric. apply in_app_iff in Hin as [Hin|Hin].
  - replace (share X p q tolerance samples_p) with (@None num); [reflexivity|]. unfold share. destruct H as [H|H]; rewrite (M _ _ Hin H); [reflexivity|].
    destruct (mapM p samples_p); reflexivity.
  - replace (share X p q tolerance samples_q) with (@None num); [now destruct (share X p q tolerance samples_p)|].
    unfold share. destruct H as [H|H]; rewrite (M _ _ Hin H); [reflexivity|]. destruct (mapM p samples_q); reflexivity.
Qed.

(** The distance over an event is in [-2, 2] if both probabilities are in [0, 1]. *)
Theorem C60_of_event E (ps po : E -> option num) e a b : ps e = Some (Fin a) -> po e = Some (Fin b) -> 0 <= a <= 1 -> 0 <= b <= 1 ->
  exists r, l1_of_event ps po e = Some (Fin r) /\ -2 <= r <= 2.
Proof. intros Ea Eb Ha Hb. exists (2 * (a - b)). split; [unfold l1_of_event; now rewrite Ea, Eb|lra]. Qed.

(** ** What is estimated: the L1 distance of two models with finitely many outcomes *)

(** All sequences of [n] independent draws with their probabilities. *)
Fixpoint draws (n : nat) (law : list (R * X)) : list (R * list X) :=
  match n with
  | O => [(1, [])]
  | S m => flat_map (fun wx => map (fun vl => (fst wx * fst vl, snd wx :: snd vl)) (draws m law)) law
  end.
Definition expected {Y} (f : Y -> R) (law : list (R * Y)) : R := Rsum (map (fun wy => fst wy * f (snd wy)) law).

Lemma expected_app {Y} (f : Y -> R) a b : expected f (a ++ b) = expected f a + expected f b.
Proof. unfold expected. rewrite map_app. apply Rsum_app. Qed.

Lemma expected_step (f h g : _) (law : list (R * X)) (D : list (R * list X)) : (forall x l, f (x :: l) = h x + g l) ->
  expected f (flat_map (fun wx => map (fun vl => (fst wx * fst vl, snd wx :: snd vl)) D) law) =
  expected h law * Rsum (map fst D) + Rsum (map fst law) * expected g D.
Proof.
  intros Hf. induction law as [|wx law IH]; [unfold expected, Rsum; simpl; ring|]. cbn [flat_map]. rewrite expected_app, IH. clear IH.
  assert (E : expected f (map (fun vl => (fst wx * fst vl, snd wx :: snd vl)) D) = fst wx * h (snd wx) * Rsum (map fst D) + fst wx * expected g D).
  { induction D as [|vl D IH]; [unfold expected, Rsum; simpl; ring|]. unfold expected, Rsum in *. cbn [map fold_right fst snd]. rewrite IH, Hf. ring. }
  rewrite E. unfold expected, Rsum. cbn [map fold_right fst snd]. ring.
Qed.

Lemma expected_one {Y} (law : list (R * Y)) : expected (fun _ => 1) law = Rsum (map fst law).
Proof. unfold expected. f_equal. apply map_ext. intros. ring. Qed.

Lemma draws_total law n : Rsum (map fst law) = 1 -> Rsum (map fst (draws n law)) = 1.
Proof.
  intros H. induction n as [|n IH]; [unfold Rsum; simpl; ring|]. cbn [draws]. rewrite <- expected_one.
  rewrite (expected_step _ (fun _ => 0) (fun _ => 1)) by (intros; ring). rewrite IH, H, expected_one, IH. unfold expected. rewrite Rsum_zero; [ring|]. intros. ring.
Qed.

(** The expected sum over [n] draws. *)
Lemma draws_sum law n (h : X -> R) : Rsum (map fst law) = 1 -> expected (fun l => Rsum (map h l)) (draws n law) = INR n * expected h law.
Proof.
  intros H. induction n as [|n IH]; [unfold expected, Rsum; simpl; ring|]. cbn [draws].
  rewrite (expected_step _ h (fun l => Rsum (map h l))) by reflexivity. rewrite IH, H, draws_total by auto. rewrite S_INR. ring.
Qed.

Lemma draws_In law n w l : In (w, l) (draws n law) -> length l = n /\ Forall (fun x => In x (map snd law)) l.
Proof.
  revert w l. induction n as [|n IH]; intros w l Hin; cbn [draws] in Hin.
  - destruct Hin as [E|[]]. injection E as <- <-. auto.
  - apply in_flat_map in Hin as ([w' x] & Hx & Hin). apply in_map_iff in Hin as ([v l'] & E & Hin). injection E as <- <-.
    destruct (IH v l' Hin) as [H1 H2]. simpl. split; [now rewrite H1|]. constructor; [now apply (in_map snd) in Hx|exact H2].
Qed.

Lemma expected_ext {Y} (f g : Y -> R) law : (forall w y, In (w, y) law -> f y = g y) -> expected f law = expected g law.
Proof. intros H. unfold expected. f_equal. apply map_ext_in. intros [w y] Hin. simpl. now rewrite (H w y Hin). Qed.

Lemma expected_lin {Y} (f g : Y -> R) a b c law : expected (fun y => a * f y + b * g y + c) law = a * expected f law + b * expected g law + c * Rsum (map fst law).
Proof. unfold expected. induction law as [|wy law IH]; unfold Rsum in *; simpl; [ring|]. rewrite IH. ring. Qed.

(** The share of samples as a sum of indicators. *)
Definition over (f g : X -> R) (tolerance : R) (x : X) : R := if Rlt_dec tolerance (f x - g x) then 1 else 0.
Definition exactly (f : X -> R) : X -> option num := fun x => Some (Fin (f x)).

Lemma share_sum f g tolerance l : l <> [] -> share X (exactly f) (exactly g) tolerance l = Some (Fin (Rsum (map (over f g tolerance) l) / INR (length l))).
Proof.
  intros Hl. unfold share.
  assert (M : forall h : X -> R, mapM (exactly h) l = Some (map (fun x => Fin (h x)) l)).
  { intros h. clear Hl. induction l as [|x l IH]; [reflexivity|]. cbn [mapM]. unfold exactly at 1. now rewrite IH. }
  rewrite !M. f_equal.
  assert (E : map (fun ab => ngtb (nsub (fst ab) (snd ab)) (Fin tolerance)) (combine (map (fun x => Fin (f x)) l) (map (fun x => Fin (g x)) l)) =
    map (fun x => Rltb tolerance (f x - g x)) l).
  { clear. induction l as [|x l IH]; [reflexivity|]. cbn [map combine fst snd]. rewrite IH. reflexivity. }
  rewrite E. rewrite bmean_true by (intros X0; apply Hl; now apply map_eq_nil in X0). rewrite map_length, map_map. f_equal. f_equal. f_equal.
  apply map_ext. intros x. unfold over, Rltb. destruct (Rlt_dec _ _); reflexivity.
Qed.

(** The estimate as a real number. *)
Definition estimate (f g : X -> R) (tolerance : R) (a b : list X) : R :=
  match l1_metric X (exactly f) (exactly g) tolerance a b with Some (Fin r) => r | _ => 0 end.

(** [f] and [g] are probability functions over the outcomes [U]; with tolerance 0 the expected estimate over [n] draws from
    each model is their L1 distance, with a positive tolerance twice the probability that the first model has in excess of
    the second where the difference is larger than the tolerance. *)
Theorem C60_unbiased (U : list X) f g tolerance n : (0 < n)%nat -> Rsum (map f U) = 1 -> Rsum (map g U) = 1 ->
  let law h := map (fun x => (h x, x)) U in
  expected (fun a => expected (fun b => estimate f g tolerance a b) (draws n (law g))) (draws n (law f)) =
  2 * Rsum (map (fun x => if Rlt_dec tolerance (f x - g x) then f x - g x else 0) U).
Proof.
  intros Hn Hf Hg law.
  assert (Hl : forall h, Rsum (map h U) = 1 -> Rsum (map fst (law h)) = 1) by (intros h <-; unfold law; now rewrite map_map).
  assert (HI : INR n <> 0) by (apply not_0_INR; lia).
  assert (Hest : forall a b, length a = n -> length b = n -> estimate f g tolerance a b =
    2 / INR n * Rsum (map (over f g tolerance) a) - 2 / INR n * Rsum (map (over f g tolerance) b)).
  { intros a b La Lb. unfold estimate, l1_metric. rewrite !share_sum; [|intros ->; simpl in *; lia..]. cbn. rewrite La, Lb. field. exact HI. }
  set (S := fun l => Rsum (map (over f g tolerance) l)).
  assert (HS : forall h, Rsum (map h U) = 1 -> expected S (draws n (law h)) = INR n * expected (over f g tolerance) (law h)) by (intros; apply draws_sum; auto).
  rewrite (expected_ext _ (fun a => 2 / INR n * S a + 0 * S a + (- 2 / INR n * (INR n * expected (over f g tolerance) (law g))))).
  2: { intros w a Ha. apply draws_In in Ha as [La _].
    rewrite (expected_ext _ (fun b => 0 * S b + (- 2 / INR n) * S b + 2 / INR n * S a)).
    - rewrite expected_lin, draws_total by auto. rewrite HS by auto. field. exact HI.
    - intros w' b Hb. apply draws_In in Hb as [Lb _]. rewrite Hest by auto. unfold S. field. exact HI. }
  rewrite expected_lin, draws_total by auto. rewrite HS by auto.
  transitivity (2 * (expected (over f g tolerance) (law f) - expected (over f g tolerance) (law g))); [field; exact HI|]. f_equal.
  unfold expected, law. rewrite !map_map. cbn [fst snd]. clear. induction U as [|x U IH]; unfold Rsum in *; cbn [map fold_right]; [ring|].
  rewrite <- IH. unfold over. destruct (Rlt_dec _ _); ring.
Qed.

Theorem C60_distance (U : list X) f g n : (0 < n)%nat -> Rsum (map f U) = 1 -> Rsum (map g U) = 1 ->
  let law h := map (fun x => (h x, x)) U in
  expected (fun a => expected (fun b => estimate f g 0 a b) (draws n (law g))) (draws n (law f)) = Rsum (map (fun x => Rabs (f x - g x)) U).
Proof.
  intros Hn Hf Hg law. unfold law. rewrite C60_unbiased by auto.
  assert (E : 2 * Rsum (map (fun x => if Rlt_dec 0 (f x - g x) then f x - g x else 0) U) =
    Rsum (map (fun x => Rabs (f x - g x)) U) + (Rsum (map f U) - Rsum (map g U))).
  { clear. induction U as [|x U IH]; unfold Rsum in *; cbn [map fold_right]; [ring|]. rewrite Rmult_plus_distr_l, IH.
    destruct (Rlt_dec 0 (f x - g x)); [rewrite Rabs_pos_eq by lra|rewrite Rabs_left1 by lra]; ring. }
  rewrite E, Hf, Hg. ring.
Qed.

(** ** The estimate with a uniform measure *)
Lemma nmean_real (h : X -> R) l : l <> [] -> nmean (map (fun x => Fin (h x)) l) = Fin (Rsum (map h l) / INR (length l)).
Proof.
  intros Hl. unfold nmean. destruct l as [|x l]; [now destruct Hl|]. cbn [map]. rewrite <- (map_cons (fun x => Fin (h x))).
  set (m := x :: l). assert (E : nsum (map (fun x => Fin (h x)) m) = Fin (Rsum (map h m))).
  { clearbody m. induction m as [|c m IH]; [reflexivity|]. cbn [map]. unfold nsum in *. cbn [fold_right]. rewrite IH. reflexivity. }
  rewrite E. unfold ndiv. rewrite map_length. destruct (Req_EM_T (INR (length m)) 0) as [Z|_]; [|reflexivity].
  exfalso. revert Z. apply not_0_INR. unfold m. simpl. lia.
Qed.

Lemma l1_uniform_sum f g u l d : l <> [] -> 0 < d -> (forall x, In x l -> u x = d) ->
  l1_uniform X (exactly f) (exactly g) (exactly u) l = Some (Fin (Rsum (map (fun x => Rabs (f x - g x)) l) / INR (length l) / d)).
Proof.
  intros Hl Hd Hu. unfold l1_uniform. destruct l as [|x l]; [now destruct Hl|].
  assert (M : forall (h : X -> R) l, mapM (exactly h) l = Some (map (fun x => Fin (h x)) l)).
  { intros h l0. induction l0 as [|y l0 IH]; [reflexivity|]. cbn [mapM]. unfold exactly at 1. now rewrite IH. }
  rewrite !M. unfold exactly. rewrite Hu by now left. f_equal.
  assert (E : forall l, map (fun ab => nabs (nsub (fst ab) (snd ab))) (combine (map (fun x => Fin (f x)) l) (map (fun x => Fin (g x)) l)) =
    map (fun x => Fin (Rabs (f x - g x))) l).
  { clear. induction l as [|x l IH]; [reflexivity|]. cbn [map combine fst snd]. rewrite IH. reflexivity. }
  rewrite E, nmean_real by discriminate. unfold ndiv. destruct (Req_EM_T d 0); [lra|reflexivity].
Qed.

(** The estimate is not negative. *)
Theorem C60_uniform_nonnegative f g u l d : l <> [] -> 0 < d -> (forall x, In x l -> u x = d) ->
  exists r, l1_uniform X (exactly f) (exactly g) (exactly u) l = Some (Fin r) /\ 0 <= r.
Proof.
  intros Hl Hd Hu. rewrite (l1_uniform_sum f g u l d) by auto. eexists. split; [reflexivity|].
  assert (0 <= Rsum (map (fun x => Rabs (f x - g x)) l)) by (apply Rsum_nonneg, Forall_map, Forall_forall; intros; apply Rabs_pos).
  assert (0 < INR (length l)) by (apply lt_0_INR; destruct l; [now destruct Hl|simpl; lia]).
  apply Rmult_le_pos; [apply Rmult_le_pos; [assumption|]|]; left; now apply Rinv_0_lt_compat.
Qed.

(** Its expectation over [n] draws of the uniform distribution over finitely many outcomes is the L1 distance. *)
Theorem C60_uniform_distance (U : list X) f g n : (0 < n)%nat -> U <> [] ->
  let law := map (fun x => (1 / INR (length U), x)) U in
  expected (fun l => match l1_uniform X (exactly f) (exactly g) (exactly (fun _ => 1 / INR (length U))) l with Some (Fin r) => r | _ => 0 end) (draws n law) =
  Rsum (map (fun x => Rabs (f x - g x)) U).
Proof.
  intros Hn HU law. assert (HL : 0 < INR (length U)) by (apply lt_0_INR; destruct U; [now destruct HU|simpl; lia]).
  assert (HI : INR n <> 0) by (apply not_0_INR; lia).
  assert (Hd : 0 < 1 / INR (length U)) by (unfold Rdiv; rewrite Rmult_1_l; now apply Rinv_0_lt_compat).
  assert (Htot : Rsum (map fst law) = 1).
  { unfold law. rewrite map_map. cbn [fst].
    assert (E : forall k (V : list X), Rsum (map (fun _ => k) V) = INR (length V) * k).
    { intros k V. induction V as [|x V IH]; [unfold Rsum; simpl; ring|]. unfold Rsum in *. cbn [map fold_right length]. rewrite IH, S_INR. ring. }
    rewrite E. field. lra. }
  rewrite (expected_ext _ (fun l => (INR (length U) / INR n) * Rsum (map (fun x => Rabs (f x - g x)) l) + 0 * 0 + 0)).
  - rewrite (expected_lin (fun l => Rsum (map (fun x => Rabs (f x - g x)) l)) (fun _ => 0)). rewrite draws_sum, draws_total by auto.
    unfold expected, law. rewrite map_map. cbn [fst snd]. rewrite (Rsum_zero (fun wy => fst wy * 0)) by (intros; ring).
    transitivity (INR (length U) * Rsum (map (fun x => 1 / INR (length U) * Rabs (f x - g x)) U)); [field; exact HI|].
    clear - HL. set (k := INR (length U)) in *. clearbody k. induction U as [|x U IH]; unfold Rsum in *; cbn [map fold_right]; [ring|].
    rewrite Rmult_plus_distr_l, IH. field. lra.
  - intros w l Hl. apply draws_In in Hl as [Ll _].
    rewrite (l1_uniform_sum f g _ l (1 / INR (length U))); auto; [|intros ->; simpl in *; lia]. rewrite Ll. field. lra.
Qed.
End Facts.

(** ** Concrete cases *)

(** Three samples of the first model, two of the second; one likelihood is infinite. *)
Example C60_case : exists n m,
  count nat (higher nat (fun x => Some (if x =? 0 then PInf else Fin (1 / 2))) (fun x => Some (Fin (1 / 4))) 0) [0; 1; 2]%nat n /\
  l1_metric nat (fun x => Some (if (x =? 0)%nat then PInf else Fin (1 / 2))) (fun x => Some (Fin (1 / 4))) 0 [0; 1; 2]%nat [1; 2]%nat = Some (Fin (2 * (INR n / INR 3 - INR m / INR 2))).
Proof.
  destruct (C60_bounded nat (fun x => Some (if (x =? 0)%nat then PInf else Fin (1 / 2))) (fun x => Some (Fin (1 / 4))) 0 [0; 1; 2]%nat [1; 2]%nat)
    as (n & m & C & _ & _ & _ & E & _); try discriminate; try (repeat constructor; discriminate).
  exists n, m. split; [exact C|exact E].
Qed.

(** The estimate can be negative though no distance is: the first model never drew what it prefers, the second did. *)
Example C60_negative : l1_metric nat (exactly nat (fun x => if (x =? 0)%nat then 3 / 4 else 1 / 4)) (exactly nat (fun x => if (x =? 0)%nat then 1 / 4 else 3 / 4)) 0 [1]%nat [0]%nat = Some (Fin (-2)).
Proof.
  unfold l1_metric. rewrite !share_sum by discriminate. unfold over, Rsum. cbn -[Rdiv].
  destruct (Rlt_dec 0 (1 / 4 - 3 / 4)); [lra|]. destruct (Rlt_dec 0 (3 / 4 - 1 / 4)); [|lra]. f_equal. f_equal. field.
Qed.

(** Two coins: the expected estimate from two draws each is the distance. *)
Example C60_coins : expected (fun a => expected (fun b => estimate nat (fun x => if (x =? 0)%nat then 3 / 4 else 1 / 4) (fun _ => 1 / 2) 0 a b)
    (draws nat 2 [(1 / 2, 0%nat); (1 / 2, 1%nat)])) (draws nat 2 [(3 / 4, 0%nat); (1 / 4, 1%nat)]) = 1 / 2.
Proof.
  assert (H := C60_distance nat [0; 1]%nat (fun x => if (x =? 0)%nat then 3 / 4 else 1 / 4) (fun _ => 1 / 2) 2 ltac:(lia)). cbn [map Nat.eqb] in H.
  rewrite H; [|unfold Rsum; simpl; field..]. unfold Rsum. cbn. rewrite (Rabs_pos_eq (3 / 4 - 1 / 2)), (Rabs_left1 (1 / 4 - 1 / 2)) by lra. field.
Qed.

Print Assumptions C60_bounded.
Print Assumptions C60_no_samples.
Print Assumptions C60_raises.
Print Assumptions C60_of_event.
Print Assumptions C60_unbiased.
Print Assumptions C60_distance.
Print Assumptions C60_uniform_nonnegative.
Print Assumptions C60_uniform_distance.
