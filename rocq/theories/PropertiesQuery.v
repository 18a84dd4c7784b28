(** * Properties C01, C02: one-pass queries compute the mixture-of-products value *)
From Coq Require Import List Arith Bool Lia Reals Lra Sorting.Sorted.
From Verif Require Import Num Graph GraphFacts Spec SpecFacts Circuit EvalFacts VarFacts.
Import ListNotations.
Local Open Scope R_scope.

(** ** C01 *)

(** The claim for one circuit: whatever earlier queries left in the store [st], the log likelihood of the row that holds
    the coordinates [x] of the circuit's variables in sorted order is the logarithm of the recursive value of the tree
    below the root. *)
Definition likelihood_is_recursive {D} (dvars : D -> list nat) (dll : D -> list R -> num) (g : graph D) : Prop :=
  forall r t (x : nat -> R) st, root g = Some r -> unfolds g r t -> smooth dvars t ->
  exists vars, circuit_variables dvars g = Some vars /\ StronglySorted lt vars /\
    (forall v, In v vars <-> mentions dvars t v) /\
    exists st', log_likelihood dvars dll g (map x vars) st =
      Some (nlog (semN (fun d => nexp (dll d (map x (sset_of (dvars d))))) t), st').

(** Full statement: every finite rooted acyclic circuit. *)
Definition C01_full : Prop :=
  forall D (dvars : D -> list nat) dll (g : graph D),
    wf g -> acyclic g -> leaves_terminal g -> likelihood_is_recursive dvars dll g.

(** Proved part: circuits in which all paths from the root to a unit have the same length.  Missing: circuits where
    some unit is reached along paths of different lengths; there the claim is false, see [C01_likelihood_refuted]. *)
Theorem C01_likelihood_partial {D} (dvars : D -> list nat) dll (g : graph D) :
  wf g -> leaves_terminal g -> (forall r, root g = Some r -> graded g r) -> likelihood_is_recursive dvars dll g.
Proof.
  intros Hwf Hlt Hg r t x st Hr Ht Hs.
  destruct (log_likelihood_correct dvars dll g r t x st) as [vars [H1 [H2 [H3 [ll [st' [H4 H5]]]]]]]; auto.
  exists vars. repeat (split; auto); try apply H3. exists st'. rewrite H4. rewrite <- H5. now rewrite nlog_nexp.
Qed.

(** In particular every tree-shaped circuit of any size. *)
Theorem C01_likelihood_tree {D} (dvars : D -> list nat) dll (g : graph D) r :
  tree_shaped g r -> leaves_terminal g -> likelihood_is_recursive dvars dll g.
Proof.
  intros Ht Hlt. apply C01_likelihood_partial; auto; [apply Ht|].
  intros r' Hr'. rewrite (tree_root g r Ht) in Hr'. inversion Hr'; subst. now apply tree_graded.
Qed.

(** The counterexample: 0 -> 1 -> 2 -> 3 and a shortcut 0 -> 3.  Unit 3 is in the second layer, unit 2 in the third, so
    unit 2 is evaluated before its child 3. *)
Definition shortcut : graph unit :=
  mkGraph [(0, USum); (1, USum); (2, USum); (3, ULeaf tt)]%nat
    [mkEdge 0 1 (Some (Fin (ln (1/2)))); mkEdge 0 3 (Some (Fin (ln (1/2))));
     mkEdge 1 2 (Some (Fin 0)); mkEdge 2 3 (Some (Fin 0))]%nat.

Definition shortcut_tree : pc unit :=
  PSum [(Fin (ln (1/2)), PSum [(Fin 0, PSum [(Fin 0, PLeaf tt)])]); (Fin (ln (1/2)), PLeaf tt)].

Lemma shortcut_wf : wf shortcut.
Proof.
  constructor; cbn.
  - repeat constructor; cbn; intuition lia.
  - repeat constructor; cbn; intuition congruence.
  - intros e [<-|[<-|[<-|[<-|[]]]]]; cbn; auto.
  - intros e [<-|[<-|[<-|[<-|[]]]]]; cbn; auto.
Qed.

Lemma shortcut_acyclic : acyclic shortcut.
Proof.
  exists (fun u => 3 - u)%nat. intros e [<-|[<-|[<-|[<-|[]]]]]; cbn; lia.
Qed.

Lemma shortcut_leaves : leaves_terminal shortcut.
Proof. intros e d [<-|[<-|[<-|[<-|[]]]]]; cbn; discriminate. Qed.

(** Follow the edges of a concrete circuit. *)
Ltac unf :=
  repeat match goal with
  | |- unfolds _ _ (PLeaf _) => apply unf_leaf; reflexivity
  | |- unfolds _ _ (PSum _) => apply unf_sum; [reflexivity|discriminate|cbn]
  | |- unfolds _ _ (PProd _) => apply unf_prod; [reflexivity|cbn]
  | |- Forall2 _ _ _ => constructor
  | |- _ /\ _ => split; [reflexivity|cbn]
  end.

Lemma shortcut_unfolds : unfolds shortcut 0%nat shortcut_tree.
Proof. unfold shortcut_tree. unf. Qed.

Lemma shortcut_smooth : smooth (fun _ => [0%nat]) shortcut_tree.
Proof. cbn. repeat split; intuition. Qed.

(** A fresh circuit raises: unit 2 reads the unset result of unit 3. *)
Theorem C01_likelihood_refuted : ~ C01_full.
Proof.
  intros H.
  destruct (H unit (fun _ => [0%nat]) (fun _ _ => Fin 0) shortcut shortcut_wf shortcut_acyclic shortcut_leaves
              0%nat shortcut_tree (fun _ => 0) empty_store eq_refl shortcut_unfolds shortcut_smooth)
    as [vars [H1 [_ [_ [st' H2]]]]].
  vm_compute in H1. inversion H1; subst vars. clear H1.
  unfold log_likelihood in H2. cbn in H2. discriminate.
Qed.

(** And after an earlier query the answer silently mixes in the earlier result: with a leftover log likelihood of 1 at the
    leaf and a present log likelihood of 0 the circuit answers something else than 0. *)
Theorem C01_stale_result : exists st ll st',
  log_likelihood (fun _ : unit => [0%nat]) (fun _ _ => Fin 0) shortcut [0] st = Some (ll, st') /\
  ll <> nlog (semN (fun _ => nexp (Fin 0)) shortcut_tree).
Proof.
  exists (fun u => if (u =? 3)%nat then Some (Fin 1) else None).
  eexists. eexists. split; [unfold log_likelihood; cbn -[nadd logsumexp]; reflexivity|].
  assert (Hs : semN (fun _ : unit => nexp (Fin 0)) shortcut_tree = Fin 1).
  { cbn. rewrite !exp_ln by lra. rewrite exp_0. f_equal. lra. }
  rewrite Hs. intros H. apply (f_equal nexp) in H. rewrite nexp_nlog in H by (cbn; lra).
  repeat (rewrite !nexp_logsumexp in H || cbn [map] in H || rewrite !nexp_add in H).
  revert H. cbn. rewrite !exp_ln by lra. rewrite ?Rplus_0_l, ?exp_0. intros H. injection H as H.
  pose proof (exp_ineq1 1 ltac:(lra)). nra.
Qed.

(** ** C02 *)

(** [dprob d] and [dcdf d row] are what the leaves compute; [None] when a leaf raises (for instance: the cdf of a symbolic
    distribution).  [val] names the leaf results when no leaf raises. *)
Definition probability_is_recursive {D} (dprob : D -> option num) (g : graph D) : Prop :=
  forall r t val st, root g = Some r -> unfolds g r t -> all_leaves (fun d => dprob d = Some (val d)) t ->
  exists st', probability_of_simple_event dprob g st = Some (semN val t, st').

Definition cdf_is_recursive {D} (dvars : D -> list nat) (dcdf : D -> list R -> option num) (g : graph D) : Prop :=
  forall r t (x : nat -> R) val st, root g = Some r -> unfolds g r t -> smooth dvars t ->
  all_leaves (fun d => dcdf d (map x (sset_of (dvars d))) = Some (val d)) t ->
  exists vars, circuit_variables dvars g = Some vars /\ StronglySorted lt vars /\
    (forall v, In v vars <-> mentions dvars t v) /\
    exists st', cdf dvars dcdf g (map x vars) st = Some (semN val t, st').

Definition C02_full : Prop :=
  forall D (dvars : D -> list nat) dcdf dprob (g : graph D), wf g -> acyclic g -> leaves_terminal g ->
    probability_is_recursive dprob g /\ cdf_is_recursive dvars dcdf g.

(** Missing: circuits where a unit is reached along paths of different lengths (false there). *)
Theorem C02_probability_cdf_partial {D} (dvars : D -> list nat) dcdf dprob (g : graph D) :
  wf g -> leaves_terminal g -> (forall r, root g = Some r -> graded g r) ->
  probability_is_recursive dprob g /\ cdf_is_recursive dvars dcdf g.
Proof.
  intros Hwf Hlt Hg. split.
  - intros r t val st Hr Ht Hv. eapply probability_correct; eauto.
  - intros r t x val st Hr Ht Hs Hv. eapply cdf_correct; eauto.
Qed.

Theorem C02_probability_cdf_refuted : ~ C02_full.
Proof.
  intros H.
  destruct (H unit (fun _ => [0%nat]) (fun _ _ => Some (Fin 0)) (fun _ => Some (Fin 0)) shortcut shortcut_wf shortcut_acyclic
              shortcut_leaves) as [Hp _].
  destruct (Hp 0%nat shortcut_tree (fun _ => Fin 0) empty_store eq_refl shortcut_unfolds) as [st' H2]; [cbn; tauto|].
  unfold probability_of_simple_event in H2. cbn in H2. discriminate.
Qed.

(** ** A concrete circuit meeting the hypotheses: a mixture of two products over two variables that share a leaf. *)
Definition diamond : graph nat :=
  mkGraph [(0, USum); (1, UProd); (2, UProd); (3, ULeaf 0); (4, ULeaf 1); (5, ULeaf 0)]%nat
    [mkEdge 0 1 (Some (Fin (ln (1/4)))); mkEdge 0 2 (Some (Fin (ln (3/4))));
     mkEdge 1 3 None; mkEdge 1 4 None; mkEdge 2 4 None; mkEdge 2 5 None]%nat.

Definition diamond_tree : pc nat :=
  PSum [(Fin (ln (1/4)), PProd [PLeaf 0%nat; PLeaf 1%nat]); (Fin (ln (3/4)), PProd [PLeaf 1%nat; PLeaf 0%nat])].

Example diamond_ok : wf diamond /\ leaves_terminal diamond /\ root diamond = Some 0%nat /\ graded diamond 0%nat /\
  unfolds diamond 0%nat diamond_tree /\ smooth (fun v => [v]) diamond_tree.
Proof.
  split; [|split; [|split; [|split; [|split]]]].
  - constructor; cbn.
    + repeat constructor; cbn; intuition lia.
    + repeat constructor; cbn; intuition congruence.
    + intros e H. repeat destruct H as [<-|H]; cbn; tauto.
    + intros e H. repeat destruct H as [<-|H]; cbn; tauto.
  - intros e d H. repeat destruct H as [<-|H]; cbn; try discriminate. destruct H.
  - reflexivity.
  - exists (fun u => if u =? 0 then 0 else if u <=? 2 then 1 else 2)%nat. split; [reflexivity|].
    intros e H _. repeat destruct H as [<-|H]; cbn; try reflexivity. destruct H.
  - unfold diamond_tree. unf.
  - cbn. repeat split; auto; intuition.
Qed.

(** Its answer after an arbitrary history: 1/4 * 2 * 3 + 3/4 * 3 * 2 when leaf values are [v + 2]. *)
Example diamond_probability st : exists st',
  probability_of_simple_event (fun v => Some (Fin (INR v + 2))) diamond st = Some (Fin 6, st').
Proof.
  destruct diamond_ok as [H1 [H2 [H3 [H4 [H5 _]]]]].
  destruct (proj1 (C02_probability_cdf_partial (fun v => [v]) (fun _ _ => None) (fun v => Some (Fin (INR v + 2))) diamond H1 H2
    ltac:(intros r Hr; rewrite H3 in Hr; now inversion Hr)) 0%nat diamond_tree (fun v => Fin (INR v + 2)) st H3 H5) as [st' ->]; [cbn; tauto|].
  exists st'. f_equal. f_equal. cbn. rewrite !exp_ln by lra. f_equal. lra.
Qed.

Print Assumptions C01_likelihood_partial.
Print Assumptions C01_likelihood_tree.
Print Assumptions C01_likelihood_refuted.
Print Assumptions C01_stale_result.
Print Assumptions C02_probability_cdf_partial.
Print Assumptions C02_probability_cdf_refuted.
