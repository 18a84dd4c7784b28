(** * Property C94: conditional probability tables of multinomial distributions *)
From Coq Require Import List Arith Bool Lia ZArith Reals Lra.
From Verif Require Import Num Graph GraphFacts Spec SpecFacts Circuit EvalFacts VarFacts Interval Dist DistFacts TreeProb PropertiesProb
  Support SupportFacts ModeFacts PropertiesSupport Multinomial MultinomialFacts PropertiesMultinomial Bayes BayesFacts PropertiesForward BayesNet BayesCircuit PropertiesBayes BayesFromMulti.
Import ListNotations.
Local Set Bullet Behavior "Strict Subproofs".
Local Open Scope R_scope.

(** ** Specification *)

(** The index tuple with [j] for the variable [v] and [i] for the other one, in the order of the axes. *)
Definition cell (vars : list nat) (v i j : nat) : list nat := map (fun x => if (x =? v)%nat then j else i) vars.

(** [v] and [p] are the two variables of the table, in any order. *)
Definition two_variables (vars : list nat) (v p : nat) : Prop := v <> p /\ (vars = [v; p] \/ vars = [p; v]).

(** The probability of the parent's state [i]. *)
Definition parent_mass (dom : nat -> list Z) (vars : list nat) (f : list nat -> R) (v i : nat) : R :=
  Rsum (map (fun j => f (cell vars v i j)) (seq 0 (length (dom v)))).

(** The integers of the elements are their hashes. *)
Definition hashed (dom : list Z) (as_int : Z -> option Z) : Prop := forall k, In k dom -> as_int k = Some k.

(** [cpd] is P(v | p): one row per state of the parent, in order, and the entry of the state [j] times the probability of the parent's state
    is the probability of both. *)
Definition conditional_table (dom : nat -> list Z) (vars : list nat) (f : list nat -> R) (v p : nat) (cpd : list (Z * dict)) : Prop :=
  map fst cpd = dom p /\
  forall i j k l, nth_error (dom p) i = Some k -> nth_error (dom v) j = Some l ->
    exists row, row_of cpd k = Some row /\ dget row l * parent_mass dom vars f v i = f (cell vars v i j).

Definition C94_full : Prop := forall dom as_int m f v p, normalised_table dom m f -> two_variables (m_vars m) v p -> hashed (dom p) as_int ->
  exists cpd, from_multinomial_distribution dom as_int v m [] = Some cpd /\ conditional_table dom (m_vars m) f v p cpd.

(** ** Proof *)
Section Table.
Variables (dom : nat -> list Z) (as_int : Z -> option Z) (m : multi) (f : list nat -> R) (v p : nat).
Hypothesis HT : normalised_table dom m f.
Hypothesis H2 : two_variables (m_vars m) v p.
Notation vars := (m_vars m).
Notation n := (length (dom v)).

Lemma cell_inj i j i' j' : cell vars v i j = cell vars v i' j' -> i = i' /\ j = j'.
Proof.
  destruct H2 as [N [E|E]]; rewrite E; unfold cell; cbn [map]; rewrite Nat.eqb_refl; destruct (Nat.eqb_spec p v); try congruence; intros X; inversion X; auto.
Qed.

Lemma cell_valid i j : valid dom vars (cell vars v i j) <-> (i < length (dom p))%nat /\ (j < n)%nat.
Proof.
  unfold valid. destruct H2 as [N [E|E]]; rewrite E; unfold cell; cbn [map]; rewrite Nat.eqb_refl; destruct (Nat.eqb_spec p v); try congruence;
    (split; [intros X; inversion X as [|? ? ? ? X1 X2]; inversion X2; auto|intros [X1 X2]; repeat constructor; auto]).
Qed.

Lemma valid_cell s : valid dom vars s -> exists i j, s = cell vars v i j /\ (i < length (dom p))%nat /\ (j < n)%nat.
Proof.
  unfold valid. destruct H2 as [N [E|E]]; rewrite E; unfold cell; cbn [map]; rewrite Nat.eqb_refl; destruct (Nat.eqb_spec p v); try congruence;
    intros X; inversion X as [|? a ? ? X1 X2]; subst; inversion X2 as [|? b ? ? X3 X4]; subst; inversion X4; subst; [exists b, a|exists a, b]; auto.
Qed.

Lemma kept_cell i j : kept [v] vars (cell vars v i j) = [j].
Proof.
  unfold kept. destruct H2 as [N [E|E]]; rewrite E; unfold cell; cbn [map combine filter fst snd mem existsb]; rewrite Nat.eqb_refl; destruct (Nat.eqb_spec p v); try congruence; cbn [orb map snd]; reflexivity.
Qed.

Lemma dom_nodup w : w = v \/ w = p -> NoDup (dom w).
Proof. intros Hw. pose proof (nt_dom _ _ _ HT) as D. rewrite Forall_forall in D. apply D. destruct H2 as [_ [E|E]]; rewrite E; destruct Hw; subst; cbn; auto. Qed.

Lemma sat_cell i k s : nth_error (dom p) i = Some k -> sat dom (parent_is dom p k) vars s <-> exists j, (j < n)%nat /\ s = cell vars v i j.
Proof.
  intros Hk. split.
  - intros Sx. destruct (valid_cell s (sat_valid _ _ _ _ Sx)) as (i' & j & -> & Hi & Hj). exists j. split; [exact Hj|]. f_equal.
    assert (X : exists k', nth_error (dom p) i' = Some k' /\ in_set (parent_is dom p k p) k').
    { unfold sat in Sx. destruct H2 as [N [E|E]]; rewrite E in Sx; unfold cell in Sx; cbn [map] in Sx; rewrite Nat.eqb_refl in Sx; destruct (Nat.eqb_spec p v); try congruence; inversion Sx as [|? ? ? ? X1 X2]; subst; [inversion X2; subst|]; assumption. }
    destruct X as (k' & E & I'). unfold parent_is, in_set in I'. rewrite Nat.eqb_refl in I'. destruct I' as [<-|[]].
    apply (NoDup_nth_error (dom p)); [apply dom_nodup; now right|exact Hi|congruence].
  - intros (j & Hj & ->). destruct (nth_error (dom v) j) as [l|] eqn:El; [|apply nth_error_None in El; lia].
    assert (Xp : in_set (parent_is dom p k p) k) by (unfold parent_is, in_set; rewrite Nat.eqb_refl; now left).
    assert (Xv : in_set (parent_is dom p k v) l).
    { unfold parent_is, in_set. destruct H2 as [N _]. destruct (Nat.eqb_spec v p); [congruence|]. eapply nth_error_In, El. }
    unfold sat. destruct H2 as [N [E|E]]; rewrite E; unfold cell; cbn [map]; rewrite Nat.eqb_refl; destruct (Nat.eqb_spec p v); try congruence; repeat constructor; eauto.
Qed.

Lemma event_over k : In k (dom p) -> Forall (set_over dom (parent_is dom p k)) vars.
Proof.
  intros Hk. assert (A : set_over dom (parent_is dom p k) p) by (exists [k]; unfold parent_is; rewrite Nat.eqb_refl; split; [reflexivity|]; split; [repeat constructor; intros []|intros x [<-|[]]; exact Hk]).
  assert (B : set_over dom (parent_is dom p k) v).
  { exists (dom v). unfold parent_is. destruct H2 as [N _]. destruct (Nat.eqb_spec v p); [congruence|]. split; [reflexivity|]. split; [apply dom_nodup; now left|intros x Hx; exact Hx]. }
  destruct H2 as [N [E|E]]; rewrite E; repeat constructor; assumption.
Qed.

Lemma mass_sum i k : nth_error (dom p) i = Some k -> sum_over (in_union dom vars [parent_is dom p k]) f (parent_mass dom vars f v i).
Proof.
  intros Hk. exists (map (cell vars v i) (seq 0 n)). split; [|split].
  - apply FinFun.Injective_map_NoDup; [|apply seq_NoDup]. intros a b E. now apply cell_inj in E.
  - intros s. rewrite in_map_iff. split.
    + intros (j & <- & Hj). apply in_seq in Hj. exists (parent_is dom p k). split; [now left|]. apply (sat_cell i k); [exact Hk|]. exists j. split; [lia|reflexivity].
    + intros (e & [<-|[]] & Sx). apply (sat_cell i k) in Sx; [|exact Hk]. destruct Sx as (j & Hj & ->). exists j. split; [reflexivity|]. apply in_seq. lia.
  - unfold parent_mass. now rewrite map_map.
Qed.

Definition the_row (i : nat) : dict := map (fun j => (Z.of_nat j, f (cell vars v i j) / parent_mass dom vars f v i)) (seq 0 n).

Lemma turn i k cpd : nth_error (dom p) i = Some k ->
  multinomial_turn dom as_int v p m k cpd = if Req_EM_T (parent_mass dom vars f v i) 0 then None else match as_int k with Some z => Some (row_set cpd z (the_row i)) | None => None end.
Proof.
  intros Hk. set (P := parent_mass dom vars f v i). pose proof (mass_sum i k Hk) as MS. fold P in MS.
  destruct (C35_conditional dom m f [parent_is dom p k] P HT) as (_ & Z0 & NZ); [constructor; [apply event_over, (nth_error_In _ _ Hk)|constructor]|constructor; constructor|exact MS|].
  unfold multinomial_turn. destruct (Req_EM_T P 0) as [E|N0]; [now rewrite (Z0 E)|]. destruct (NZ N0) as (m' & Ec & Ev & At). rewrite Ec.
  set (f' := fun s => match m_at m' s with Fin r => r | _ => 0 end).
  assert (In1 : forall j, (j < n)%nat -> f' (cell vars v i j) = f (cell vars v i j) / P).
  { intros j Hj. unfold f'. assert (V : valid dom vars (cell vars v i j)) by (apply cell_valid; split; [apply nth_error_Some; congruence|exact Hj]).
    destruct (At _ V) as [A _]. rewrite A; [reflexivity|]. exists (parent_is dom p k). split; [now left|]. apply (sat_cell i k); eauto. }
  assert (Out : forall i' j, (i' < length (dom p))%nat -> (j < n)%nat -> i' <> i -> f' (cell vars v i' j) = 0).
  { intros i' j Hi Hj N. unfold f'. assert (V : valid dom vars (cell vars v i' j)) by now apply cell_valid.
    destruct (At _ V) as [_ A]. rewrite A; [reflexivity|]. intros (e & [<-|[]] & Sx). apply (sat_cell i k) in Sx; [|exact Hk]. destruct Sx as (j' & _ & E). apply cell_inj in E. tauto. }
  assert (Hf' : forall s, In s (states (shape dom (m_vars m'))) -> m_at m' s = Fin (f' s)).
  { rewrite Ev. intros s Hs. apply valid_states in Hs. destruct (valid_cell s Hs) as (i' & j & -> & Hi & Hj). destruct (At _ Hs) as [A B]. unfold f'. destruct (Nat.eq_dec i' i) as [->|N].
    - rewrite A; [reflexivity|]. exists (parent_is dom p k). split; [now left|]. apply (sat_cell i k); eauto.
    - rewrite B; [reflexivity|]. intros (e & [<-|[]] & Sx). apply (sat_cell i k) in Sx; [|exact Hk]. destruct Sx as (j' & _ & E). apply cell_inj in E. tauto. }
  assert (Fib : forall j, (j < n)%nat -> Rsum (map f' (filter (fun full => leqb (kept [v] vars full) [j]) (states (shape dom vars)))) = f (cell vars v i j) / P).
  { intros j Hj. rewrite Rsum_filter. rewrite (Rsum_one _ _ (cell vars v i j)).
    - rewrite kept_cell, (proj2 (leqb_eq _ _) eq_refl). now apply In1.
    - apply states_NoDup.
    - apply valid_states, cell_valid. split; [apply nth_error_Some; congruence|exact Hj].
    - intros s Hs Ns. apply valid_states in Hs. destruct (valid_cell s Hs) as (i' & j' & -> & Hi & Hj'). rewrite kept_cell. destruct (leqb [j'] [j]) eqn:E; [|reflexivity]. apply leqb_eq in E. injection E as ->.
      apply Out; auto; congruence. }
  assert (Tot : Rsum (map f' (states (shape dom vars))) = 1).
  { rewrite <- (fibre_sum f' (kept [v] vars) _ (map (fun j => [j]) (seq 0 n))).
    - rewrite map_map. rewrite (Rsum_ext _ (fun j => / P * f (cell vars v i j))).
      + rewrite Rsum_scal. fold (parent_mass dom vars f v i). fold P. now field.
      + intros j Hj. apply in_seq in Hj. rewrite Fib by lia. unfold Rdiv. ring.
    - apply FinFun.Injective_map_NoDup; [|apply seq_NoDup]. intros a b E. congruence.
    - intros s Hs. apply valid_states in Hs. destruct (valid_cell s Hs) as (i' & j' & -> & Hi & Hj'). rewrite kept_cell. apply in_map_iff. exists j'. split; [reflexivity|]. apply in_seq. lia. }
  assert (Sh : filter (fun w => mem w [v]) (m_vars m') = [v]).
  { rewrite Ev. destruct H2 as [N [E|E]]; rewrite E; cbn [filter mem existsb]; rewrite Nat.eqb_refl; destruct (Nat.eqb_spec p v); try congruence; reflexivity. }
  destruct (marginal_R dom m' f' Hf' [v]) as (mg & Em & _ & Atg); [now rewrite Sh|rewrite Ev, Tot; lra|]. rewrite Em.
  unfold table_row. rewrite (mapM_some _ (fun j => (Z.of_nat j, f (cell vars v i j) / P))); [reflexivity|].
  intros j Hj. apply in_seq in Hj. rewrite Atg; [|apply valid_states; repeat constructor; lia]. rewrite Ev, Tot, Fib by lia. unfold Rdiv. now rewrite Rinv_1, Rmult_1_r.
Qed.

Lemma row_set_new cpd k row : ~ In k (map fst cpd) -> row_set cpd k row = cpd ++ [(k, row)].
Proof.
  intros N. unfold row_set. destruct (existsb _ cpd) eqn:E; [|reflexivity]. apply existsb_exists in E. destruct E as ((k', r) & Hx & E). apply Z.eqb_eq in E. cbn in E. subst. destruct N. exact (in_map fst _ _ Hx).
Qed.

Lemma turns l : forall b cpd, hashed l as_int -> (forall i, nth_error (dom p) (b + i) = nth_error l i) -> NoDup (map fst cpd ++ l) ->
  (forall i, (b <= i < b + length l)%nat -> parent_mass dom vars f v i <> 0) ->
  foldM (fun acc k => multinomial_turn dom as_int v p m k acc) l cpd = Some (cpd ++ combine l (map the_row (seq b (length l)))).
Proof.
  induction l as [|k l IH]; intros b cpd Hi0 Hn Hd Hp; cbn [foldM length seq map combine]; [now rewrite app_nil_r|].
  rewrite (turn b k) by (rewrite <- (Nat.add_0_r b), Hn; reflexivity). destruct (Req_EM_T (parent_mass dom vars f v b) 0) as [E|_]; [destruct (Hp b); [cbn [length]; lia|exact E]|].
  rewrite (Hi0 k) by now left. rewrite row_set_new by (apply NoDup_remove_2 in Hd; intros X; apply Hd; apply in_or_app; now left).
  rewrite (IH (S b)).
  - now rewrite <- app_assoc.
  - intros x Hx. apply Hi0. now right.
  - intros i. specialize (Hn (S i)). cbn [nth_error] in Hn. rewrite <- Hn. f_equal. lia.
  - rewrite map_app. cbn [map fst]. now rewrite <- app_assoc.
  - intros i Hi. apply Hp. cbn [length]. lia.
Qed.

Lemma from_multinomial_foldM cpd : from_multinomial_distribution dom as_int v m cpd = foldM (fun acc k => multinomial_turn dom as_int v p m k acc) (dom p) cpd.
Proof.
  unfold from_multinomial_distribution. destruct H2 as [N [E|E]]; rewrite E; cbn [mem existsb]; rewrite Nat.eqb_refl; cbn [orb negb].
  - reflexivity.
  - destruct (Nat.eqb_spec p v); [congruence|]. destruct (Nat.eqb_spec v p); [congruence|]. reflexivity.
Qed.

Lemma the_rows : hashed (dom p) as_int -> (forall i, (i < length (dom p))%nat -> parent_mass dom vars f v i <> 0) ->
  from_multinomial_distribution dom as_int v m [] = Some (combine (dom p) (map the_row (seq 0 (length (dom p))))).
Proof. intros Hi0 Hp. rewrite from_multinomial_foldM. rewrite (turns (dom p) 0 []); [reflexivity|exact Hi0|reflexivity|apply dom_nodup; now right|intros i Hi; apply Hp; lia]. Qed.
End Table.

Lemma dget_row (g : nat -> R) n : forall b j, (j < n)%nat -> dget (map (fun j => (Z.of_nat j, g j)) (seq b n)) (Z.of_nat (b + j)) = g (b + j)%nat.
Proof.
  induction n as [|n IH]; intros b j Hj; [lia|]. cbn [seq map]. rewrite dget_cons. destruct (Z.eqb_spec (Z.of_nat b) (Z.of_nat (b + j))) as [E|E].
  - f_equal. lia.
  - destruct j as [|j]; [rewrite Nat.add_0_r in E; congruence|]. rewrite <- Nat.add_succ_comm. apply IH. lia.
Qed.

Lemma find_combine {B} (l : list Z) (r : list B) i k x : NoDup l -> nth_error l i = Some k -> nth_error r i = Some x -> find (fun kr => Z.eqb (fst kr) k) (combine l r) = Some (k, x).
Proof.
  intros N. revert i r. induction N as [|a l Na N IH]; intros i r Hk Hx; [destruct i; discriminate|]. destruct r as [|y r]; [destruct i; discriminate|]. cbn [combine find fst]. destruct i as [|i]; cbn in Hk, Hx.
  - inversion Hk; inversion Hx; subst. now rewrite Z.eqb_refl.
  - destruct (Z.eqb_spec a k) as [->|_]; [destruct Na; eapply nth_error_In, Hk|]. now apply (IH i).
Qed.

Lemma map_fst_combine {A B} (l : list A) : forall r : list B, length r = length l -> map fst (combine l r) = l.
Proof. induction l as [|a l IH]; intros [|b r] H; cbn in *; try discriminate; auto. f_equal. apply IH. lia. Qed.

(** ** C94 *)

(** If every state of the parent is possible: one row per state of the parent; its keys are 0, 1, ... and its entries are the conditional probabilities in the order of the domain. *)
Theorem C94_rows dom as_int m f v p : normalised_table dom m f -> two_variables (m_vars m) v p -> hashed (dom p) as_int ->
  (forall i, (i < length (dom p))%nat -> parent_mass dom (m_vars m) f v i <> 0) ->
  exists cpd, from_multinomial_distribution dom as_int v m [] = Some cpd /\ map fst cpd = dom p /\
    forall i k, nth_error (dom p) i = Some k -> exists row, row_of cpd k = Some row /\ keys row = zrange (length (dom v)) /\
      forall j, (j < length (dom v))%nat -> dget row (Z.of_nat j) = f (cell (m_vars m) v i j) / parent_mass dom (m_vars m) f v i.
Proof.
  intros HT H2 Hz Hp. eexists. split; [now apply (the_rows dom as_int m f v p)|]. split; [apply map_fst_combine; now rewrite map_length, seq_length|].
  intros i k Hk. assert (Hi : (i < length (dom p))%nat) by (apply nth_error_Some; congruence). exists (the_row dom m f v i). split.
  - unfold row_of. rewrite (find_combine _ _ i k (the_row dom m f v i)); [reflexivity|apply (dom_nodup dom m f v p HT H2); now right|exact Hk|].
    rewrite nth_error_map. rewrite (nth_error_nth' _ 0%nat) by (now rewrite seq_length). now rewrite seq_nth.
  - split; [unfold keys, the_row, zrange; rewrite map_map; reflexivity|]. intros j Hj. apply (dget_row (fun j => f (cell (m_vars m) v i j) / parent_mass dom (m_vars m) f v i) _ 0 j Hj).
Qed.
Print Assumptions C94_rows.

(** *** A second call *)
Lemma row_set_mid A B k row0 row : NoDup (map fst (A ++ (k, row0) :: B)) -> row_set (A ++ (k, row0) :: B) k row = A ++ (k, row) :: B.
Proof.
  intros N. rewrite map_app in N. cbn [map fst] in N. apply NoDup_remove_2 in N. unfold row_set. rewrite existsb_app. cbn [existsb fst]. rewrite Z.eqb_refl. rewrite orb_true_r.
  assert (G : forall l, (forall x, In x l -> In x (A ++ B)) -> map (fun kr : Z * dict => if (fst kr =? k)%Z then (k, row) else kr) l = l).
  { induction l as [|(k', r) l IH]; intros Hl; [reflexivity|]. cbn [map fst]. rewrite IH by (intros; apply Hl; now right). destruct (Z.eqb_spec k' k) as [->|_]; [|reflexivity].
    destruct N. rewrite <- map_app. exact (in_map fst _ _ (Hl _ (or_introl eq_refl))). }
  rewrite map_app. cbn [map fst]. rewrite Z.eqb_refl. f_equal; [|f_equal]; apply G; intros; apply in_or_app; auto.
Qed.

Lemma turns_again dom as_int m f v p (HT : normalised_table dom m f) (H2 : two_variables (m_vars m) v p) : forall l rest b A, map fst rest = l -> hashed l as_int ->
  (forall i, nth_error (dom p) (b + i) = nth_error l i) -> NoDup (map fst A ++ l) -> (forall i, (b <= i < b + length l)%nat -> parent_mass dom (m_vars m) f v i <> 0) ->
  foldM (fun acc k => multinomial_turn dom as_int v p m k acc) l (A ++ rest) = Some (A ++ combine l (map (the_row dom m f v) (seq b (length l)))).
Proof.
  induction l as [|k l IH]; intros rest b A Hr Hz Hn Hd Hp.
  { destruct rest; [reflexivity|discriminate]. }
  destruct rest as [|(k', row0) rest]; [discriminate|]. cbn [map fst] in Hr. injection Hr as -> Hr. cbn [foldM length seq map combine].
  rewrite (turn dom as_int m f v p HT H2 b k) by (rewrite <- (Nat.add_0_r b), Hn; reflexivity).
  destruct (Req_EM_T (parent_mass dom (m_vars m) f v b) 0) as [E|_]; [destruct (Hp b); [cbn [length]; lia|exact E]|]. rewrite (Hz k) by now left.
  rewrite row_set_mid by (rewrite map_app; cbn [map fst]; now rewrite Hr).
  change (A ++ (k, the_row dom m f v b) :: rest) with (A ++ [(k, the_row dom m f v b)] ++ rest). rewrite app_assoc, (IH rest (S b)).
  - now rewrite <- app_assoc.
  - exact Hr.
  - intros x Hx. apply Hz. now right.
  - intros i. specialize (Hn (S i)). cbn [nth_error] in Hn. rewrite <- Hn. f_equal. lia.
  - rewrite map_app. cbn [map fst]. now rewrite <- app_assoc.
  - intros i Hi. apply Hp. cbn [length]. lia.
Qed.

(** Reading another distribution into a filled table leaves nothing of the old one. *)
Theorem C94_again dom as_int m f v p old : normalised_table dom m f -> two_variables (m_vars m) v p -> hashed (dom p) as_int ->
  (forall i, (i < length (dom p))%nat -> parent_mass dom (m_vars m) f v i <> 0) -> map fst old = dom p ->
  from_multinomial_distribution dom as_int v m old = from_multinomial_distribution dom as_int v m [].
Proof.
  intros HT H2 Hz Hp Ho. rewrite (the_rows dom as_int m f v p HT H2 Hz Hp), (from_multinomial_foldM dom as_int m v p H2).
  apply (turns_again dom as_int m f v p HT H2 (dom p) old 0 []); [exact Ho|exact Hz|reflexivity|apply (dom_nodup dom m f v p HT H2); now right|intros i Hi; apply Hp; lia].
Qed.
Print Assumptions C94_again.

(** Domains of the variable whose elements are their own indices, and possible states of the parent.  Missing: other domains and impossible states, refuted below. *)
Theorem C94_table_partial dom as_int m f v p : normalised_table dom m f -> two_variables (m_vars m) v p -> hashed (dom p) as_int -> dom v = zrange (length (dom v)) ->
  (forall i, (i < length (dom p))%nat -> parent_mass dom (m_vars m) f v i <> 0) ->
  exists cpd, from_multinomial_distribution dom as_int v m [] = Some cpd /\ conditional_table dom (m_vars m) f v p cpd.
Proof.
  intros HT H2 Hz Hd Hp. destruct (C94_rows dom as_int m f v p HT H2 Hz Hp) as (cpd & E & K & R). exists cpd. split; [exact E|]. split; [exact K|].
  intros i j k l Hk Hl. destruct (R i k Hk) as (row & Er & _ & G). exists row. split; [exact Er|]. assert (Hj : (j < length (dom v))%nat) by (apply nth_error_Some; congruence).
  assert (l = Z.of_nat j) as ->.
  { rewrite Hd in Hl. unfold zrange in Hl. rewrite nth_error_map, (nth_error_nth' _ 0%nat) in Hl by (now rewrite seq_length). rewrite seq_nth in Hl by exact Hj. cbn in Hl. now inversion Hl. }
  rewrite G by exact Hj. field. apply Hp. apply nth_error_Some. congruence.
Qed.
Print Assumptions C94_table_partial.

(** A state of the parent with probability zero: the call raises. *)
Theorem C94_impossible dom as_int m f v p i : normalised_table dom m f -> two_variables (m_vars m) v p -> (i < length (dom p))%nat -> parent_mass dom (m_vars m) f v i = 0 ->
  forall cpd, from_multinomial_distribution dom as_int v m cpd = None.
Proof.
  intros HT H2 Hi H0 cpd. rewrite (from_multinomial_foldM dom as_int m v p H2). destruct (nth_error (dom p) i) as [k|] eqn:Hk; [|apply nth_error_None in Hk; lia].
  assert (G : forall l, In k l -> forall acc, foldM (fun acc k => multinomial_turn dom as_int v p m k acc) l acc = None).
  { induction l as [|a l IH]; intros Hin acc; [destruct Hin|]. cbn [foldM]. destruct (multinomial_turn dom as_int v p m a acc) eqn:E; [|reflexivity]. destruct Hin as [->|Hin]; [|now apply IH].
    rewrite (turn dom as_int m f v p HT H2 i k acc Hk) in E. destruct (Req_EM_T (parent_mass dom (m_vars m) f v i) 0); [discriminate|contradiction]. }
  apply G. eapply nth_error_In, Hk.
Qed.
Print Assumptions C94_impossible.

(** An element of the parent's domain that is no integer: the call raises. *)
Theorem C94_int dom as_int m f v p k : normalised_table dom m f -> two_variables (m_vars m) v p -> In k (dom p) -> as_int k = None ->
  forall cpd, from_multinomial_distribution dom as_int v m cpd = None.
Proof.
  intros HT H2 Hk H0 cpd. rewrite (from_multinomial_foldM dom as_int m v p H2). destruct (In_nth_error _ _ Hk) as (i & Hi).
  assert (G : forall l, In k l -> forall acc, foldM (fun acc k => multinomial_turn dom as_int v p m k acc) l acc = None); [|now apply G].
  induction l as [|a l IH]; intros Hin acc; [destruct Hin|]. cbn [foldM]. destruct (multinomial_turn dom as_int v p m a acc) eqn:E; [|reflexivity]. destruct Hin as [->|Hin]; [|now apply IH].
  rewrite (turn dom as_int m f v p HT H2 i k acc Hi), H0 in E. destruct (Req_EM_T _ 0); discriminate.
Qed.
Print Assumptions C94_int.

(** Anything but two variables, one of them the one of the table, fails the assertions. *)
Theorem C94_assertions dom as_int m v cpd : (length (m_vars m) <> 2%nat \/ ~ In v (m_vars m)) -> from_multinomial_distribution dom as_int v m cpd = None.
Proof.
  intros H. unfold from_multinomial_distribution. destruct (m_vars m) as [|a [|b [|c l]]]; auto. destruct H as [H|H]; [now destruct H|]. destruct (mem v [a; b]) eqn:E; [|reflexivity]. apply mem_In in E. contradiction.
Qed.
Print Assumptions C94_assertions.

(** The network of the parent's marginal and the table has the joint distribution it came from. *)
Theorem C94_joint_partial dom as_int m f v p cpd root x i j : normalised_table dom m f -> two_variables (m_vars m) v p -> hashed (dom p) as_int -> dom v = zrange (length (dom v)) ->
  from_multinomial_distribution dom as_int v m [] = Some cpd -> nth_error (dom p) i = Some (x p) -> nth_error (dom v) j = Some (x v) ->
  dget root (x p) = parent_mass dom (m_vars m) f v i ->
  joint (mkNet p (dom p) root [CPT v (dom v) cpd []]) x = f (cell (m_vars m) v i j).
Proof.
  intros HT H2 Hz Hd E Hk Hl Hr. assert (Hp : forall i, (i < length (dom p))%nat -> parent_mass dom (m_vars m) f v i <> 0).
  { intros i' Hi' H0. rewrite (C94_impossible dom as_int m f v p i' HT H2 Hi' H0) in E. discriminate. }
  destruct (C94_table_partial dom as_int m f v p HT H2 Hz Hd Hp) as (cpd' & E' & K & R). assert (cpd' = cpd) as -> by congruence.
  destruct (R i j (x p) (x v) Hk Hl) as (row & Er & G). unfold joint. cbn [n_probs n_var n_children map below Rprod fold_right]. rewrite (tab_row cpd (x p) row (x v) Er), Hr, <- G. ring.
Qed.
Print Assumptions C94_joint_partial.

Lemma mass_nonneg dom m f v p i : normalised_table dom m f -> two_variables (m_vars m) v p -> (i < length (dom p))%nat -> 0 <= parent_mass dom (m_vars m) f v i.
Proof.
  intros HT H2 Hi. apply Rsum_nonneg. apply Forall_map, Forall_forall. intros j Hj. apply in_seq in Hj. apply (nt_at _ _ _ HT). apply (cell_valid dom m v p H2). split; [exact Hi|lia].
Qed.

Lemma row_distribution dom m f v p i : normalised_table dom m f -> two_variables (m_vars m) v p -> dom v = zrange (length (dom v)) -> (i < length (dom p))%nat ->
  parent_mass dom (m_vars m) f v i <> 0 -> distribution_over (dom v) (the_row dom m f v i).
Proof.
  intros HT H2 Hd Hi Hp. assert (K : keys (the_row dom m f v i) = zrange (length (dom v))) by (unfold keys, the_row, zrange; rewrite map_map; reflexivity).
  assert (P : 0 < parent_mass dom (m_vars m) f v i) by (pose proof (mass_nonneg dom m f v p i HT H2 Hi); lra). split; [split|split].
  - rewrite K. apply zrange_NoDup.
  - unfold vals, the_row. rewrite map_map. apply Forall_map, Forall_forall. intros j Hj. apply in_seq in Hj. cbn [snd]. apply Rmult_le_pos; [|left; now apply Rinv_0_lt_compat].
    apply (nt_at _ _ _ HT). apply (cell_valid dom m v p H2). split; [exact Hi|lia].
  - rewrite K, <- Hd. intros z Hz. exact Hz.
  - unfold vals, the_row. rewrite map_map. cbn [snd]. rewrite (Rsum_ext _ (fun j => / parent_mass dom (m_vars m) f v i * f (cell (m_vars m) v i j))); [|intros; unfold Rdiv; ring].
    rewrite Rsum_scal. fold (parent_mass dom (m_vars m) f v i). now apply Rinv_l.
Qed.

(** From the multinomial distribution over the table and the network to the circuit: its likelihoods are the probabilities of the distribution. *)
Theorem C94_circuit_partial dom as_int m f v p root : normalised_table dom m f -> two_variables (m_vars m) v p -> hashed (dom p) as_int ->
  dom v = zrange (length (dom v)) -> dom p = zrange (length (dom p)) -> (forall i, (i < length (dom p))%nat -> parent_mass dom (m_vars m) f v i <> 0) ->
  (forall j, (j < length (dom v))%nat -> 0 < f (cell (m_vars m) v 0 j)) ->
  distribution_over (dom p) root -> (forall i, (i < length (dom p))%nat -> dget root (Z.of_nat i) = parent_mass dom (m_vars m) f v i) ->
  exists cpd g, from_multinomial_distribution dom as_int v m [] = Some cpd /\ as_probabilistic_circuit (mkNet p (dom p) root [CPT v (dom v) cpd []]) = Some g /\
    forall i j x, (i < length (dom p))%nat -> (j < length (dom v))%nat -> x p = Z.of_nat i -> x v = Z.of_nat j -> likelihood_at g (at_real x) (Fin (f (cell (m_vars m) v i j))).
Proof.
  intros HT H2 Hz Hv Hpd Hp H0 Hr Hg. pose proof (the_rows dom as_int m f v p HT H2 Hz Hp) as E. set (cpd := combine (dom p) (map (the_row dom m f v) (seq 0 (length (dom p))))) in *.
  set (b := mkNet p (dom p) root [CPT v (dom v) cpd []]).
  assert (Inh : exists i j, (i < length (dom p))%nat /\ (j < length (dom v))%nat).
  { destruct (nt_inhabited _ _ _ HT) as (s & Hs). destruct (valid_cell dom m v p H2 s Hs) as (i & j & _ & Hi & Hj). eauto. }
  destruct Inh as (i0 & j0 & Hi0 & Hj0). assert (Nv : NoDup (dom v)) by (apply (dom_nodup dom m f v p HT H2); now left). assert (Np : NoDup (dom p)) by (apply (dom_nodup dom m f v p HT H2); now right).
  assert (K : map fst cpd = dom p) by (apply map_fst_combine; now rewrite map_length, seq_length).
  assert (Entry : forall i k, In k (dom v) -> (i < length (dom p))%nat -> exists j, k = Z.of_nat j /\ (j < length (dom v))%nat /\ tab cpd (Z.of_nat i) k = f (cell (m_vars m) v i j) / parent_mass dom (m_vars m) f v i).
  { intros i k Hk Hi. rewrite Hv in Hk. apply zrange_In in Hk. destruct Hk as (j & Hj & ->). exists j. split; [reflexivity|]. split; [exact Hj|].
    destruct (C94_rows dom as_int m f v p HT H2 Hz Hp) as (cpd' & E' & _ & R). assert (cpd' = cpd) as -> by congruence.
    destruct (R i (Z.of_nat i)) as (row & Er & _ & G); [|rewrite (tab_row _ _ row _ Er); now apply G].
    rewrite Hpd. unfold zrange. rewrite nth_error_map, (nth_error_nth' _ 0%nat) by (now rewrite seq_length). now rewrite seq_nth by exact Hi. }
  assert (Ok : network_ok b).
  { split; [exact Np|]. split; [cbn; destruct (dom p); [cbn in Hi0; lia|discriminate]|]. split; [exact Hr|]. split.
    - constructor; [|constructor]. cbn [b n_dom cpt_ok]. split; [exact Nv|]. split; [destruct (dom v); [cbn in Hj0; lia|discriminate]|]. split; [now rewrite K|]. split; [intros s; now rewrite K|]. split; [|exact I].
      apply Forall_forall. intros (k, row) Hx. apply in_combine_r in Hx. apply in_map_iff in Hx. destruct Hx as (i & <- & Hi). apply in_seq in Hi. cbn [snd]. apply (row_distribution dom m f v p); auto; [lia|apply Hp; lia].
    - cbn. destruct H2 as [N _]. constructor; [cbn; intuition congruence|]. constructor; [intros []|constructor]. }
  assert (Rd : network_readable b).
  { split; [exact Hpd|]. split.
    - cbn [b n_dom n_probs]. intros k Hk. rewrite Hpd in Hk. apply zrange_In in Hk. destruct Hk as (i & Hi & ->). rewrite Hg by exact Hi. pose proof (mass_nonneg dom m f v p i HT H2 Hi). pose proof (Hp i Hi). lra.
    - constructor; [|constructor]. cbn [readable]. split; [exact Hv|]. split; [|exact I]. intros k Hk. assert (Z0 : (0 < length (dom p))%nat) by lia.
      destruct (Entry 0%nat k Hk Z0) as (j & -> & Hj & T). change 0%Z with (Z.of_nat 0). rewrite T. pose proof (mass_nonneg dom m f v p 0 HT H2 Z0). pose proof (Hp 0%nat Z0). apply Rdiv_lt_0_compat; [now apply H0|lra]. }
  destruct (C38_bayesian_network_partial b Ok Rd) as (g & t & Eg & _ & _ & _ & _ & L); [discriminate|].
  exists cpd, g. split; [exact E|]. split; [exact Eg|]. intros i j x Hi Hj Xp Xv.
  assert (Nth : forall q a, dom q = zrange (length (dom q)) -> (a < length (dom q))%nat -> nth_error (dom q) a = Some (Z.of_nat a)).
  { intros q a Hq Ha. rewrite Hq. unfold zrange. rewrite nth_error_map, (nth_error_nth' _ 0%nat) by (now rewrite seq_length). now rewrite seq_nth by exact Ha. }
  rewrite <- (C94_joint_partial dom as_int m f v p cpd root x i j HT H2 Hz Hv E); [apply L| | |].
  - rewrite Xp. now apply Nth.
  - rewrite Xv. now apply Nth.
  - rewrite Xp. now apply Hg.
Qed.
Print Assumptions C94_circuit_partial.

(** *** The full claim is false: states of the parent that cannot occur, and domains with other names *)
Definition lone_f (s : list nat) : R := match s with [O; O] => 1/4 | [O; S O] => 3/4 | _ => 0 end.
Definition lone : multi := mkMulti [0; 1]%nat (fun s => Fin (lone_f s)).

Lemma lone_table : normalised_table bits lone lone_f.
Proof.
  constructor.
  - repeat constructor; simpl; intuition lia.
  - repeat constructor; simpl; intuition lia.
  - intros s _. split; [reflexivity|]. unfold lone_f. destruct s as [|[|a] [|[|[|b]] [|c s]]]; lra.
  - exists [[0; 0]; [0; 1]; [1; 0]; [1; 1]]%nat. split; [repeat constructor; simpl; intuition congruence|]. split; [|cbn; lra].
    intros s. rewrite <- valid_states. cbn. tauto.
Qed.

Theorem C94_impossible_refuted : ~ C94_full.
Proof.
  intros H. destruct (H bits Some lone lone_f 1%nat 0%nat lone_table) as (cpd & E & _); [split; [discriminate|now right]|intros k _; reflexivity|].
  rewrite (C94_impossible bits Some lone lone_f 1 0 1 lone_table) in E; [discriminate|split; [discriminate|now right]|cbn; lia|]. unfold parent_mass. cbn. lra.
Qed.
Print Assumptions C94_impossible_refuted.

Definition named (v : nat) : list Z := match v with O => [0%Z; 1%Z] | _ => [5%Z; 7%Z] end.
Definition even_f (s : list nat) : R := 1/4.
Definition even : multi := mkMulti [0; 1]%nat (fun s => Fin (even_f s)).

Lemma even_table : normalised_table named even even_f.
Proof.
  constructor.
  - repeat constructor; simpl; intuition lia.
  - repeat constructor; simpl; intuition lia.
  - intros s _. split; [reflexivity|]. unfold even_f. lra.
  - exists [[0; 0]; [0; 1]; [1; 0]; [1; 1]]%nat. split; [repeat constructor; simpl; intuition congruence|]. split; [|cbn; unfold even_f; lra].
    intros s. rewrite <- valid_states. cbn. tauto.
Qed.

(** All states are possible, but the elements 5 and 7 of the domain are stored as 0 and 1. *)
Theorem C94_names_refuted : ~ C94_full.
Proof.
  intros H. assert (T : two_variables (m_vars even) 1 0) by (split; [discriminate|now right]).
  destruct (H named Some even even_f 1%nat 0%nat even_table T (fun k _ => eq_refl)) as (cpd & E & _ & R).
  destruct (C94_rows named Some even even_f 1 0 even_table T (fun k _ => eq_refl)) as (cpd' & E' & _ & R'); [intros i _; unfold parent_mass, even_f; cbn; lra|]. assert (cpd' = cpd) as -> by congruence.
  destruct (R 0%nat 0%nat 0%Z 5%Z eq_refl eq_refl) as (row & Er & G). destruct (R' 0%nat 0%Z eq_refl) as (row' & Er' & K & _). assert (row' = row) as -> by congruence.
  rewrite dget_absent in G; [unfold even_f in G; lra|]. rewrite K. cbn. lia.
Qed.
Print Assumptions C94_names_refuted.

(** A table over two binary variables, all of whose cells differ: P(1 | 0), then P(0 | 1). *)
Definition four_f (s : list nat) : R := match s with [O; O] => 1/10 | [O; S O] => 2/10 | [S O; O] => 3/10 | [S O; S O] => 4/10 | _ => 0 end.
Definition four : multi := mkMulti [0; 1]%nat (fun s => Fin (four_f s)).

Lemma four_table : normalised_table bits four four_f.
Proof.
  constructor.
  - repeat constructor; simpl; intuition lia.
  - repeat constructor; simpl; intuition lia.
  - intros s _. split; [reflexivity|]. unfold four_f. destruct s as [|[|[|a]] [|[|[|b]] [|c s]]]; lra.
  - exists [[0; 0]; [0; 1]; [1; 0]; [1; 1]]%nat. split; [repeat constructor; simpl; intuition congruence|]. split; [|cbn; lra].
    intros s. rewrite <- valid_states. cbn. tauto.
Qed.

Example C94_case : exists cpd cpd', from_multinomial_distribution bits Some 1 four [] = Some cpd /\ from_multinomial_distribution bits Some 0 four [] = Some cpd' /\ tab cpd 0 1 = 2/3 /\ tab cpd' 1 0 = 1/3.
Proof.
  assert (T1 : two_variables (m_vars four) 1 0) by (split; [discriminate|now right]). assert (T0 : two_variables (m_vars four) 0 1) by (split; [discriminate|now left]).
  destruct (C94_rows bits Some four four_f 1 0 four_table T1 (fun k _ => eq_refl)) as (cpd & E & _ & R); [intros [|[|i]] Hi; cbn in Hi; try lia; unfold parent_mass; cbn; lra|].
  destruct (C94_rows bits Some four four_f 0 1 four_table T0 (fun k _ => eq_refl)) as (cpd' & E' & _ & R'); [intros [|[|i]] Hi; cbn in Hi; try lia; unfold parent_mass; cbn; lra|].
  exists cpd, cpd'. split; [exact E|]. split; [exact E'|]. destruct (R 0%nat 0%Z eq_refl) as (row & Er & _ & G). destruct (R' 1%nat 1%Z eq_refl) as (row' & Er' & _ & G').
  rewrite (tab_row _ _ row _ Er), (tab_row _ _ row' _ Er'). specialize (G 1%nat). specialize (G' 0%nat). change (Z.of_nat 1) with 1%Z in G. change (Z.of_nat 0) with 0%Z in G'. rewrite G by (cbn; lia). rewrite G' by (cbn; lia). unfold parent_mass. cbn. split; lra.
Qed.

Example C94_circuit_case : exists cpd g, from_multinomial_distribution bits Some 1 four [] = Some cpd /\ as_probabilistic_circuit (mkNet 0 [0; 1]%Z [(0%Z, 3/10); (1%Z, 7/10)] [CPT 1 [0; 1]%Z cpd []]) = Some g /\
  likelihood_at g (at_real (fun v => match v with O => 1 | _ => 0 end%Z)) (Fin (3/10)).
Proof.
  destruct (C94_circuit_partial bits Some four four_f 1 0 [(0%Z, 3/10); (1%Z, 7/10)] four_table) as (cpd & g & E & Eg & L); try reflexivity.
  - split; [discriminate|now right].
  - intros k _. reflexivity.
  - intros [|[|i]] Hi; cbn in Hi; try lia; unfold parent_mass; cbn; lra.
  - intros [|[|j]] Hj; cbn in Hj; try lia; cbn; lra.
  - split; [apply two_states; [discriminate|lra|lra]|split; [intros x; cbn; tauto|cbn; lra]].
  - intros [|[|i]] Hi; cbn in Hi; try lia; unfold parent_mass, dget; cbn; lra.
  - exists cpd, g. split; [exact E|]. split; [exact Eg|]. apply (L 1%nat 0%nat); cbn; auto; lia.
Qed.

Example C94_again_case : from_multinomial_distribution bits Some 1 four [(0%Z, []); (1%Z, [(7%Z, 1)])] = from_multinomial_distribution bits Some 1 four [].
Proof.
  apply (C94_again bits Some four four_f 1 0); [exact four_table|split; [discriminate|now right]|intros k _; reflexivity| |reflexivity].
  intros [|[|i]] Hi; cbn in Hi; try lia; unfold parent_mass; cbn; lra.
Qed.
