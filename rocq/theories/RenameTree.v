(** * RenameTree: trees of other unit objects

    Proof file for C83. *)
From Coq Require Import List Arith Bool Lia ZArith Reals Permutation.
From Verif Require Import Num Graph GraphFacts Spec SpecFacts Circuit EvalFacts VarFacts PropertiesQuery Interval GaussInt Dist DistFacts
  TreeProb PropertiesProb Simplify SimplifyFacts TreeLocal PropertiesSimplify PropertiesMarginal Conditional
  Rename Copy CopyFacts.
Import ListNotations.
Local Open Scope nat_scope.
Local Set Bullet Behavior "Strict Subproofs".

Section Rename.
Context {D : Type}.
Variables (f : id -> id) (g : graph D) (es : list edge).
Hypothesis inj : forall x y, f x = f y -> x = y.
Hypothesis Hp : Permutation es (g_edges g).

Let g' : graph D := mkGraph (map (fun p => (f (fst p), snd p)) (g_nodes g)) (map (ren_edge f) es).

Lemma rt_ids : node_ids g' = map f (node_ids g).
Proof. unfold node_ids, g'. cbn. now rewrite !map_map. Qed.

Lemma rt_in e' : In e' (g_edges g') <-> exists e, In e (g_edges g) /\ e' = ren_edge f e.
Proof.
  unfold g'. cbn. rewrite in_map_iff. split; intros (e & A & B).
  - exists e. split; [now apply (Permutation_in _ Hp)|now symmetry].
  - exists e. split; [now symmetry|]. now apply (Permutation_in _ (Permutation_sym Hp)).
Qed.

Lemma rt_dst : Permutation (map e_dst (g_edges g')) (map f (map e_dst (g_edges g))).
Proof. unfold g'. cbn. rewrite !map_map. exact (Permutation_map (fun e => f (e_dst e)) Hp). Qed.

Lemma NoDup_map_inj {A B} (h : A -> B) l : (forall x y, h x = h y -> x = y) -> NoDup l -> NoDup (map h l).
Proof. intros H N. now apply FinFun.Injective_map_NoDup. Qed.

Lemma rt_wf : wf g -> wf g'.
Proof.
  intros [N E S T]. constructor.
  - rewrite rt_ids. now apply NoDup_map_inj.
  - apply (Permutation_NoDup (l := map (fun p => (f (fst p), f (snd p))) (map (fun e => (e_src e, e_dst e)) (g_edges g)))).
    + unfold g'. cbn. rewrite !map_map. apply Permutation_sym. exact (Permutation_map (fun e => (f (e_src e), f (e_dst e))) Hp).
    + apply NoDup_map_inj; [|exact E]. intros [x y] [x' y'] H. cbn in H. injection H as H1 H2. apply inj in H1, H2. congruence.
  - intros e' He. apply rt_in in He. destruct He as (e & He & ->). rewrite rt_ids. cbn. now apply in_map, S.
  - intros e' He. apply rt_in in He. destruct He as (e & He & ->). rewrite rt_ids. cbn. now apply in_map, T.
Qed.

Lemma rt_acyclic : acyclic g -> wf g -> acyclic g'.
Proof.
  intros (rk & R) W.
  set (back := fun y => match find (fun x => f x =? y) (node_ids g) with Some x => x | None => 0 end).
  assert (B : forall x, In x (node_ids g) -> back (f x) = x).
  { intros x Hx. unfold back. destruct (find (fun z => f z =? f x) (node_ids g)) as [z|] eqn:E.
    - apply find_some in E. destruct E as [_ E]. apply Nat.eqb_eq in E. now apply inj.
    - exfalso. apply (find_none _ _ E) in Hx. now rewrite Nat.eqb_refl in Hx. }
  exists (fun y => rk (back y)). intros e' He. apply rt_in in He. destruct He as (e & He & ->). cbn.
  rewrite !B; [now apply R|exact (wf_src _ W e He)|exact (wf_dst _ W e He)].
Qed.

Lemma rt_tree r : tree_shaped g r -> tree_shaped g' (f r).
Proof.
  intros (W & A & Hr & ND & All & Top). split; [now apply rt_wf|]. split; [now apply rt_acyclic|].
  split; [rewrite rt_ids; now apply in_map|]. split; [|split].
  - apply (Permutation_NoDup (Permutation_sym rt_dst)). now apply NoDup_map_inj.
  - intros u' Hu N. rewrite rt_ids in Hu. apply in_map_iff in Hu. destruct Hu as (u & <- & Hu).
    apply (Permutation_in _ (Permutation_sym rt_dst)). apply in_map, All; [exact Hu|]. congruence.
  - intros X. apply (Permutation_in _ rt_dst) in X. apply in_map_iff in X. destruct X as (x & E & X). apply inj in E. congruence.
Qed.

Lemma rt_terminal : same_as f g g' -> leaves_terminal g -> leaves_terminal g'.
Proof.
  intros S L e' d He K. apply rt_in in He. destruct He as (e & He & ->). cbn in K.
  rewrite (ren_node_kind f g g' S) in K. exact (L e d He K).
Qed.
End Rename.

Lemma copy_edges_perm {D} (g : graph D) : wf g -> Permutation (edges_iter g) (g_edges g).
Proof.
  intros W. apply NoDup_Permutation.
  - exact (NoDup_map_inv _ _ (edges_iter_NoDup g W)).
  - exact (NoDup_map_inv _ _ (wf_edges _ W)).
  - intros e. rewrite edges_iter_in. split; [tauto|]. intros H. split; [exact H|exact (wf_src _ W e H)].
Qed.

Lemma valid_tree_ren f (g : graph dist) r t es : (forall x y, f x = f y -> x = y) -> Permutation es (g_edges g) ->
  same_as f g (mkGraph (map (fun p => (f (fst p), snd p)) (g_nodes g)) (map (ren_edge f) es)) ->
  valid_tree g r t -> valid_tree (mkGraph (map (fun p => (f (fst p), snd p)) (g_nodes g)) (map (ren_edge f) es)) (f r) t.
Proof.
  intros inj P S [T L U N Sm Dc O]. constructor; auto.
  - now apply rt_tree.
  - now apply rt_terminal.
  - exact (ren_unfolds f g _ S r t U).
Qed.

Lemma valid_tree_copy f (g : graph dist) r t : (forall x y, f x = f y -> x = y) -> valid_tree g r t -> valid_tree (circuit_copy f g) (f r) t.
Proof.
  intros inj V. pose proof (proj1 (vt_tree _ _ _ V)) as W. pose proof (circuit_copy_same_as f g inj W) as S.
  rewrite (circuit_copy_eq f g inj W) in *. apply valid_tree_ren; auto. now apply copy_edges_perm.
Qed.

Lemma answers_same f (g g' : graph dist) e p : same_as f g g' -> answers g e p -> answers g' e p.
Proof.
  intros S H st'. destruct (H (fun x => st' (f x))) as [s E]. unfold probability_of_simple_event in *.
  pose proof (ren_run_pass f g g' S (dist_prob e) sum_forward prod_forward (fun x => st' (f x)) st' (fun _ => eq_refl)) as X.
  rewrite E in X. destruct (run_pass (dist_prob e) sum_forward prod_forward g' st') as [[v' s']|]; [|contradiction].
  destruct X as [-> _]. eauto.
Qed.
