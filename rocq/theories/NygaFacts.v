(** * NygaFacts: the segments of the induction *)
From Coq Require Import List Arith Bool Lia ZArith Reals Lra Permutation.
From Verif Require Import Num Graph GraphFacts Spec SpecFacts Circuit EvalFacts Interval Dist DistFacts Simplify TreeLocal Layout LayoutFacts Star Nyga.
Import ListNotations.
Local Set Bullet Behavior "Strict Subproofs".
Local Open Scope R_scope.

(** ** np.unique *)
Fixpoint ascending (l : list R) : Prop :=
  match l with [] => True | x :: l' => (forall y, In y l' -> x < y) /\ ascending l' end.

Lemma uniq_insert_In x l y : In y (map fst (uniq_insert x l)) <-> y = x \/ In y (map fst l).
Proof.
  induction l as [|[z c] l IH]; cbn [uniq_insert map fst In]; [intuition|]. rb; cbn [map fst In]; [intuition|subst; intuition|]. rewrite IH. intuition.
Qed.

Lemma uniq_insert_ascending x l : ascending (map fst l) -> ascending (map fst (uniq_insert x l)).
Proof.
  induction l as [|[z c] l IH]; cbn [uniq_insert map fst ascending]; [intros _; split; [intros y []|exact I]|]. intros [H1 H2]. rb; cbn [map fst ascending].
  - split; [|split; auto]. intros y [<-|Hy]; [auto|]. specialize (H1 y Hy). lra.
  - split; auto.
  - split; [|auto]. intros y Hy. apply uniq_insert_In in Hy. destruct Hy as [->|Hy]; [lra|auto].
Qed.

Lemma unique_ascending data : ascending (map fst (np_unique data)).
Proof. induction data as [|x data IH]; [exact I|]. cbn. now apply uniq_insert_ascending. Qed.

Lemma unique_In data y : In y (map fst (np_unique data)) <-> In y data.
Proof. induction data as [|x data IH]; [tauto|]. cbn. rewrite uniq_insert_In, IH. intuition. Qed.

(** Counting through the distinct values. *)
Definition selected (P : R -> bool) (l : list (R * nat)) : R := Rsum (map (fun xc => if P (fst xc) then INR (snd xc) else 0) l).

Lemma uniq_insert_selected P x l : selected P (uniq_insert x l) = selected P l + (if P x then 1 else 0).
Proof.
  unfold selected. induction l as [|[z c] l IH]; cbn [uniq_insert map fst snd]; [cbn; destruct (P x); lra|]. rb; cbn [map fst snd]; unfold Rsum in *; cbn [fold_right].
  - destruct (P x); cbn [INR]; lra.
  - subst. destruct (P z); [rewrite S_INR|]; lra.
  - rewrite IH. lra.
Qed.

Lemma unique_selected P data : selected P (np_unique data) = INR (length (filter P data)).
Proof.
  induction data as [|x data IH]; [reflexivity|]. cbn [np_unique fold_right filter]. rewrite uniq_insert_selected. fold (np_unique data). rewrite IH. destruct (P x); [|lra]. cbn [length]. rewrite S_INR. lra.
Qed.

Lemma unique_counts data : Forall (fun xc => (0 < snd xc)%nat) (np_unique data).
Proof.
  induction data as [|x data IH]; [constructor|]. cbn [np_unique fold_right]. fold (np_unique data). induction (np_unique data) as [|[z c] l IHl]; cbn [uniq_insert]; [repeat constructor|].
  inversion IH; subst. rb; repeat (constructor; cbn [snd] in *; auto); lia.
Qed.

Lemma ascending_nth l : ascending l -> forall i j, (i < j)%nat -> (j < length l)%nat -> nth i l 0 < nth j l 0.
Proof.
  induction l as [|x l IH]; intros H i j Hij Hj; cbn [length] in Hj; [lia|]. destruct H as [H1 H2]. destruct j as [|j]; [lia|]. destruct i as [|i]; cbn [nth].
  - apply H1. apply nth_In. lia.
  - apply IH; auto; lia.
Qed.

Lemma ascending_NoDup l : ascending l -> NoDup l.
Proof. induction l as [|x l IH]; intros H; constructor; destruct H as [H1 H2]; auto. intros X. specialize (H1 x X). lra. Qed.

(** ** Consecutive segments *)
Fixpoint chain (a n : nat) (L : list (nat * nat)) : Prop :=
  match L with
  | [] => a = n
  | (b, e) :: L' => b = a /\ (b < e)%nat /\ chain e n L'
  end.

Lemma chain_le a n L : chain a n L -> (a <= n)%nat.
Proof. revert a. induction L as [|[b e] L IH]; cbn; intros a H; [lia|]. destruct H as (-> & H & C). apply IH in C. lia. Qed.

Lemma chain_app a n L1 L2 : chain a n (L1 ++ L2) <-> exists m, chain a m L1 /\ chain m n L2.
Proof.
  revert a. induction L1 as [|[b e] L1 IH]; cbn [app chain]; intros a.
  - split; [intros H; exists a; auto|intros (m & -> & H); auto].
  - rewrite IH. split; [intros (-> & H & m & C1 & C2); exists m; auto|intros (m & (-> & H & C1) & C2); eauto].
Qed.

Lemma chain_bounds a n L b e : chain a n L -> In (b, e) L -> (a <= b < e)%nat /\ (e <= n)%nat.
Proof.
  revert a. induction L as [|[b' e'] L IH]; cbn [chain In]; intros a H Hin; [destruct Hin|]. destruct H as (-> & H & C).
  destruct Hin as [E|Hin]; [injection E as <- <-; apply chain_le in C; lia|]. apply (IH _ C) in Hin. lia.
Qed.

(** Every position is in exactly one segment. *)
Lemma chain_find a n L i : chain a n L -> (a <= i < n)%nat -> exists b e, In (b, e) L /\ (b <= i < e)%nat.
Proof.
  revert a. induction L as [|[b e] L IH]; cbn [chain In]; intros a H Hi; [lia|]. destruct H as (-> & H & C).
  destruct (Nat.lt_ge_cases i e) as [X|X]; [exists a, e; split; [now left|lia]|]. destruct (IH e C ltac:(lia)) as (b' & e' & Hin & B). exists b', e'. auto.
Qed.

Lemma chain_NoDup a n L : chain a n L -> NoDup L.
Proof.
  revert a. induction L as [|[b e] L IH]; intros a H; constructor; destruct H as (-> & H & C); [|eauto].
  intros X. apply (chain_bounds _ _ _ _ _ C) in X. lia.
Qed.

Lemma chain_apart a n L b e b' e' : chain a n L -> In (b, e) L -> In (b', e') L -> (b, e) <> (b', e') -> (e <= b' \/ e' <= b)%nat.
Proof.
  revert a. induction L as [|[c d] L IH]; intros a H H1 H2 N; [destruct H1|]. destruct H as (-> & H & C).
  destruct H1 as [E1|H1], H2 as [E2|H2]; try (injection E1 as <- <-); try (injection E2 as <- <-).
  - contradiction.
  - apply (chain_bounds _ _ _ _ _ C) in H2. lia.
  - apply (chain_bounds _ _ _ _ _ C) in H1. lia.
  - eauto.
Qed.

Lemma chain_sum (f : nat -> R) a n L : chain a n L -> Rsum (map (fun be => f (snd be) - f (fst be)) L) = f n - f a.
Proof.
  revert a. induction L as [|[b e] L IH]; cbn [chain map]; intros a H; [subst; unfold Rsum; cbn; lra|]. destruct H as (-> & _ & C).
  unfold Rsum. cbn [fold_right fst snd]. fold (Rsum (map (fun be => f (snd be) - f (fst be)) L)). rewrite (IH e C). lra.
Qed.

(** ** The loop *)
Section Loop.
Variables (xs ws : list R) (k : nat) (imp : R) (whole : nat -> nat -> num) (split : nat -> nat -> nat -> num) (v : nat).
Hypothesis Hk : (1 <= k)%nat.
Hypothesis Himp : 0 <= imp.

Lemma best_split_spec b e : let '(ll, best) := compute_best_split k split b e in
  match best with
  | Some s => (b + k <= s /\ s + k <= e)%nat
  | None => ll = NInf
  end.
Proof.
  unfold compute_best_split. set (l := seq _ _).
  assert (Hl : forall s, In s l -> (b + k <= s /\ s + k <= e)%nat) by (intros s Hs; apply in_seq in Hs; lia).
  assert (G : forall (acc : num * option nat), match snd acc with Some s => (b + k <= s /\ s + k <= e)%nat | None => fst acc = NInf end ->
    match snd (fold_left (better_split split b e) l acc) with Some s => (b + k <= s /\ s + k <= e)%nat | None => fst (fold_left (better_split split b e) l acc) = NInf end).
  { clearbody l. induction l as [|s l IH]; intros acc H; [exact H|]. cbn [fold_left]. apply IH; [intros; apply Hl; now right|]. unfold better_split. destruct (ngtb _ _); [apply Hl; now left|exact H]. }
  specialize (G (NInf, None) eq_refl). destruct (fold_left _ l _) as [ll [s|]]; exact G.
Qed.

(** Without a possible split the improvement is never good enough. *)
Lemma no_split_no_improvement b e : improvement_is_good_enough imp whole b e NInf = false.
Proof.
  unfold improvement_is_good_enough. destruct (whole b e); cbn; try reflexivity; destruct (Rltb_spec imp 0); auto; lra.
Qed.

Definition leaf_of (be : nat * nat) : R * sint := (sum_weights ws (fst be) (snd be) / cumulative ws (length ws), leaf_interval xs (fst be) (snd be)).

Lemma induce_spec b e :
  induce xs ws k imp whole split b e = Some (inr (leaf_of (b, e))) \/
  exists s, (b + k <= s /\ s + k <= e)%nat /\ induce xs ws k imp whole split b e = Some (inl [(b, s); (s, e)]).
Proof.
  unfold induce. assert (B := best_split_spec b e). destruct (compute_best_split k split b e) as [ll [s|]].
  - destruct (improvement_is_good_enough imp whole b e ll); [right; eauto|left; reflexivity].
  - subst ll. rewrite no_split_no_improvement. left. reflexivity.
Qed.

Definition leaf_node (be : nat * nat) : num * dist := (nlog (Fin (fst (leaf_of be))), DUnif v (snd (leaf_of be))).

(** Every segment has at least [k] positions, or there is only one. *)
Definition big (n : nat) (L : list (nat * nat)) : Prop := L = [(0, n)]%nat \/ Forall (fun be => (fst be + k <= snd be)%nat) L.

Definition budget (queue : list (nat * nat)) : nat := list_sum (map (fun be => 2 * (snd be - fst be) - 1)%nat queue).

Lemma budget_app q q' : budget (q ++ q') = (budget q + budget q')%nat.
Proof. unfold budget. now rewrite map_app, list_sum_app. Qed.

Lemma split_segment n L b e s rest : chain 0 n L -> big n L -> Permutation ((b, e) :: rest) L -> (b + k <= s /\ s + k <= e)%nat ->
  exists L', chain 0 n L' /\ big n L' /\ Permutation ((b, s) :: (s, e) :: rest) L'.
Proof.
  intros C B P Hs. assert (Hin : In (b, e) L) by (eapply Permutation_in; [exact P|now left]). apply in_split in Hin. destruct Hin as (L1 & L2 & ->).
  exists (L1 ++ (b, s) :: (s, e) :: L2). split; [|split].
  - apply chain_app in C. destruct C as (m & C1 & C2). apply chain_app. exists m. split; [exact C1|]. cbn [chain] in *. destruct C2 as (-> & H & C2). repeat split; auto; lia.
  - right. assert (F : L1 = [] /\ L2 = [] \/ Forall (fun be => (fst be + k <= snd be)%nat) (L1 ++ L2)).
    { destruct B as [B|B]; [left|right].
      - destruct L1 as [|x L1]; [destruct L2; [auto|discriminate]|]. destruct L1; discriminate.
      - apply Forall_app in B. destruct B as [B1 B2]. inversion B2; subst. now apply Forall_app. }
    destruct F as [[-> ->]|F]; [repeat constructor; cbn; lia|]. apply Forall_app in F. destruct F as [F1 F2]. apply Forall_app. split; [exact F1|]. repeat constructor; cbn; try lia; auto.
  - apply Permutation_cons_app_inv in P. rewrite P. apply (Permutation_trans (l' := (b, s) :: (s, e) :: L1 ++ L2)); [apply Permutation_refl|].
    rewrite (Permutation_middle L1 L2 (s, e)). now apply Permutation_middle.
Qed.

Lemma loop_spec n : forall m queue done L, chain 0 n L -> big n L -> Permutation (queue ++ done) L -> (budget queue <= m)%nat ->
  exists done' L', chain 0 n L' /\ big n L' /\ Permutation done' L' /\
    forall fuel, (m <= fuel)%nat -> induction_loop xs ws k imp whole split v fuel queue (layout (star (map leaf_node done))) (S (length done)) = Some (layout (star (map leaf_node done'))).
Proof.
  induction m as [|m IH]; intros queue done L C B P Hm.
  - destruct queue as [|[b e] queue].
    + exists done, L. repeat split; auto. intros [|fuel] _; reflexivity.
    + exfalso. assert (Hin : In (b, e) L) by (eapply Permutation_in; [exact P|now left]). apply (chain_bounds _ _ _ _ _ C) in Hin. unfold budget in Hm. cbn in Hm. lia.
  - destruct queue as [|[b e] queue].
    + exists done, L. repeat split; auto. intros [|fuel] _; reflexivity.
    + assert (Hin : In (b, e) L) by (eapply Permutation_in; [exact P|now left]). assert (Hb := chain_bounds _ _ _ _ _ C Hin).
      change ((b, e) :: queue) with ([(b, e)] ++ queue) in Hm. rewrite budget_app in Hm. unfold budget at 1 in Hm. cbn [map list_sum fold_right fst snd] in Hm.
      destruct (induce_spec b e) as [E|(s & Hs & E)].
      * destruct (IH queue (done ++ [(b, e)]) L C B) as (done' & L' & C' & B' & P' & R').
        { rewrite <- P. cbn [app]. rewrite app_assoc. symmetry. apply Permutation_cons_append. }
        { lia. }
        exists done', L'. repeat split; auto. intros [|fuel] Hf; [lia|]. cbn [induction_loop]. rewrite E. destruct (leaf_of (b, e)) as [w i] eqn:El.
        specialize (R' fuel ltac:(lia)). rewrite map_app, app_length in R'. cbn [map length] in R'. rewrite <- R'. rewrite Nat.add_1_r.
        rewrite <- (map_length leaf_node done) at 1 2. rewrite star_add. replace (leaf_node (b, e)) with (nlog (Fin w), DUnif v i) by (unfold leaf_node; now rewrite El). reflexivity.
      * destruct (split_segment n L b e s (queue ++ done) C B P Hs) as (L1 & C1 & B1 & P1).
        destruct (IH (queue ++ [(b, s); (s, e)]) done L1 C1 B1) as (done' & L' & C' & B' & P' & R').
        { rewrite <- P1, <- app_assoc. cbn [app]. symmetry. rewrite Permutation_middle. rewrite Permutation_middle. reflexivity. }
        { rewrite budget_app. unfold budget at 2. cbn [map list_sum fold_right fst snd]. lia. }
        exists done', L'. repeat split; auto. intros [|fuel] Hf; [lia|]. cbn [induction_loop]. rewrite E. apply R'. lia.
Qed.
End Loop.
