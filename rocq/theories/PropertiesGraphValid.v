(** * Property C72: the validity check decides acyclicity and connectedness *)
From Coq Require Import List Arith Bool Lia.
From Verif Require Import Num Graph GraphFacts GraphValid GraphValidFacts Spec Layout LayoutFacts.
Import ListNotations.
Local Set Bullet Behavior "Strict Subproofs".

(** ** Specification *)

(** Walks along edges, in their direction and in any direction. *)
Fixpoint walk {D} (g : graph D) (u : id) (es : list edge) (v : id) : Prop :=
  match es with
  | [] => u = v
  | e :: es' => In e (g_edges g) /\ e_src e = u /\ walk g (e_dst e) es' v
  end.
Fixpoint wander {D} (g : graph D) (u : id) (es : list (bool * edge)) (v : id) : Prop :=
  match es with
  | [] => u = v
  | (true, e) :: es' => In e (g_edges g) /\ e_src e = u /\ wander g (e_dst e) es' v
  | (false, e) :: es' => In e (g_edges g) /\ e_dst e = u /\ wander g (e_src e) es' v
  end.
Definition no_cycle {D} (g : graph D) : Prop := forall u es, walk g u es u -> es = [].
Definition in_one_piece {D} (g : graph D) : Prop := forall u v, In u (node_ids g) -> In v (node_ids g) -> exists es, wander g u es v.

(** ** Walks *)
Lemma walk_app {D} (g : graph D) es es' : forall u v w, walk g u es v -> walk g v es' w -> walk g u (es ++ es') w.
Proof. induction es as [|e es IH]; cbn; intros u v w H H'; [now subst|]. destruct H as (H1 & H2 & H3). split; [exact H1|]. split; [exact H2|]. now apply (IH _ v). Qed.
Lemma walk_reach {D} (g : graph D) es : forall u v, walk g u es v -> reach g u v.
Proof.
  induction es as [|e es IH]; cbn; intros u v H; [subst; apply reach_refl|]. destruct H as (H1 & <- & H3). apply (reach_trans g _ (e_dst e)); [|now apply IH].
  apply (reach_step g _ (e_src e)); [apply reach_refl|exact H1|reflexivity].
Qed.
Lemma reach_walk {D} (g : graph D) u v : reach g u v -> exists es, walk g u es v.
Proof.
  induction 1 as [|v e _ [es IH] He <-]; [now exists []|]. exists (es ++ [e]). apply (walk_app g es [e] u (e_src e)); [exact IH|]. cbn. auto.
Qed.

Lemma cycle_before {D} (g : graph D) : (forall v, ~ before g v v) <-> no_cycle g.
Proof.
  split.
  - intros H u es Hw. destruct es as [|e es]; [reflexivity|exfalso]. cbn in Hw. destruct Hw as (He & <- & Hw). apply walk_reach in Hw. apply (H (e_dst e)). exists e. split; [exact He|]. split; [|reflexivity]. exact Hw.
  - intros H v (e & He & Hr & <-). destruct (reach_walk _ _ _ Hr) as (es & Hw). assert (E : es ++ [e] = []); [|destruct es; discriminate].
    apply (H (e_dst e)). apply (walk_app g es [e] _ (e_src e)); [exact Hw|]. cbn. auto.
Qed.

Lemma wander_app {D} (g : graph D) es es' : forall u v w, wander g u es v -> wander g v es' w -> wander g u (es ++ es') w.
Proof.
  induction es as [|[b e] es IH]; cbn; intros u v w H H'; [now subst|]. destruct b; destruct H as (H1 & H2 & H3); (split; [exact H1|]; split; [exact H2|]; now apply (IH _ v)).
Qed.
Lemma linked_wander {D} (g : graph D) u v : linked g u v <-> exists es, wander g u es v.
Proof.
  split.
  - induction 1 as [|e _ [es IH] He|e _ [es IH] He]; [now exists []| |].
    + exists (es ++ [(true, e)]). apply (wander_app g es [(true, e)] u (e_src e)); [exact IH|]. cbn. auto.
    + exists (es ++ [(false, e)]). apply (wander_app g es [(false, e)] u (e_dst e)); [exact IH|]. cbn. auto.
  - intros (es & H). revert u H. induction es as [|[b e] es IH]; cbn; intros u H; [subst; apply linked_refl|]. destruct b; destruct H as (He & <- & H); apply IH in H.
    + apply (linked_trans g _ (e_dst e)); [|exact H]. apply linked_down; [apply linked_refl|exact He].
    + apply (linked_trans g _ (e_src e)); [|exact H]. apply linked_up; [apply linked_refl|exact He].
Qed.

(** ** C72 *)

(** The check answers for every graph with a node, and it answers whether the graph has no cycle and is in one piece. *)
Theorem C72_is_valid {D} (g : graph D) : wf g -> node_ids g <> [] -> exists b, is_valid g = Some b /\ (b = true <-> no_cycle g /\ in_one_piece g).
Proof.
  intros Hwf Hne. destruct (acyclic_spec g Hwf) as (b & E & Hb). destruct (connected_spec g Hwf Hne) as (c & E' & Hc). unfold is_valid. rewrite E.
  assert (Hp : c = true <-> in_one_piece g).
  { rewrite Hc. unfold in_one_piece. split; intros H u v Hu Hv; [apply linked_wander|apply linked_wander]; auto. }
  rewrite cycle_before in Hb. destruct b.
  - rewrite E'. exists c. split; [reflexivity|]. rewrite Hp. intuition.
  - exists false. split; [reflexivity|]. split; [discriminate|]. intros [H _]. now apply Hb.
Qed.

(** The graph without nodes raises. *)
Theorem C72_empty {D} (g : graph D) : wf g -> node_ids g = [] -> is_valid g = None.
Proof.
  intros Hwf E. destruct g as [ns es]. unfold node_ids in E. cbn in E. destruct ns; [|discriminate]. destruct es as [|e es]; [reflexivity|]. destruct (wf_src _ Hwf e); now left.
Qed.

(** Circuits whose units all descend from one root without parents are valid. *)
Theorem C72_rooted {D} (g : graph D) r : wf g -> acyclic g -> root g = Some r -> is_valid g = Some true.
Proof.
  intros Hwf [rk Hac] Hr. assert (Hin : In r (node_ids g)) by now apply root_spec in Hr.
  destruct (C72_is_valid g Hwf) as (b & E & Hb); [intros X; rewrite X in Hin; exact Hin|]. rewrite E. f_equal. apply Hb. split.
  - intros u es. assert (G : forall es u v, walk g u es v -> es = [] \/ rk v < rk u).
    { clear u es. induction es as [|e es IH]; intros u v H; [now left|]. right. cbn in H. destruct H as (He & <- & H). specialize (Hac e He). destruct (IH _ _ H) as [->|X]; [|lia].
      cbn in H. subst v. exact Hac. }
    intros H. destruct (G es u u H) as [->|X]; [reflexivity|lia].
  - assert (Hall := root_reaches_all g r Hwf (ex_intro _ rk Hac) Hr). assert (L : forall u, In u (node_ids g) -> linked g r u).
    { intros u Hu. specialize (Hall u Hu). clear - Hall. induction Hall as [|v e _ IH He <-]; [apply linked_refl|now apply linked_down]. }
    intros u v Hu Hv. apply linked_wander. apply (linked_trans g _ r); [apply linked_sym|]; auto.
Qed.

(** In particular the circuits that are laid out from trees. *)
Theorem C72_trees {D} (t : pc D) : is_valid (layout t) = Some true.
Proof.
  destruct (layout_tree t) as (Hwf & Hac & _). apply (C72_rooted _ 0 Hwf Hac). apply (tree_root _ 0). exact (layout_tree t).
Qed.

(** A product with a shared leaf, a cycle, two pieces; and a valid graph with two roots, for which [root] raises. *)
Example C72_shared : is_valid (mkGraph [(0, UProd); (1, USum); (2, USum); (3, ULeaf tt)] [mkEdge 0 1 None; mkEdge 0 2 None; mkEdge 1 3 None; mkEdge 2 3 None]) = Some true.
Proof. reflexivity. Qed.
Example C72_cycle : is_valid (mkGraph [(0, UProd); (1, @USum unit); (2, USum)] [mkEdge 0 1 None; mkEdge 1 2 None; mkEdge 2 1 None]) = Some false.
Proof. reflexivity. Qed.
Example C72_pieces : is_valid (mkGraph [(0, UProd); (1, @ULeaf unit tt); (2, USum)] [mkEdge 0 1 None]) = Some false.
Proof. reflexivity. Qed.
Example C72_two_roots : let g := mkGraph [(0, UProd); (1, @ULeaf unit tt); (2, USum)] [mkEdge 0 1 None; mkEdge 2 1 None] in is_valid g = Some true /\ root g = None.
Proof. split; reflexivity. Qed.

Print Assumptions C72_is_valid.
Print Assumptions C72_empty.
Print Assumptions C72_rooted.
Print Assumptions C72_trees.
