(** * Rename: circuits that differ only in the identity of their unit objects

    Proof file.  [same_as f g g']: [g'] is [g] with every unit [u] replaced by the object [f u]; the units come in the same
    order and every unit has the same edges in the same order.  All queries of the model agree on such circuits. *)
From Coq Require Import List Arith Bool Lia Reals.
From Verif Require Import Num Graph GraphFacts Spec SpecFacts Circuit.
Import ListNotations.

Definition ren_edge (f : id -> id) (e : edge) : edge := mkEdge (f (e_src e)) (f (e_dst e)) (e_lw e).

Record same_as {D} (f : id -> id) (g g' : graph D) : Prop := {
  sa_inj : forall x y, f x = f y -> x = y;
  sa_nodes : g_nodes g' = map (fun p => (f (fst p), snd p)) (g_nodes g);
  sa_edges : forall e', In e' (g_edges g') -> exists e, In e (g_edges g) /\ e' = ren_edge f e;
  sa_out : forall u, out_edges g' (f u) = map (ren_edge f) (out_edges g u)
}.

Lemma mapM_map {A B C} (h : B -> option C) (k : A -> B) l : mapM h (map k l) = mapM (fun a => h (k a)) l.
Proof.
  induction l as [|a l IH]; [reflexivity|].
  unfold mapM in *. simpl. destruct (h (k a)); [|reflexivity]. now rewrite IH.
Qed.

Lemma mapM_ext_in {A B} (h k : A -> option B) l : (forall a, In a l -> h a = k a) -> mapM h l = mapM k l.
Proof.
  induction l as [|a l IH]; intros H; [reflexivity|].
  assert (E : mapM h l = mapM k l) by (apply IH; intros; apply H; now right).
  unfold mapM in *. simpl. rewrite (H a (or_introl eq_refl)). destruct (k a); [|reflexivity]. now rewrite E.
Qed.

Section Rename.
Context {D : Type} (f : id -> id) (g g' : graph D).
Hypothesis SA : same_as f g g'.

Let inj := sa_inj f g g' SA.

Lemma ren_eqb x y : (f x =? f y) = (x =? y).
Proof.
  destruct (Nat.eqb_spec x y) as [->|N]; [apply Nat.eqb_refl|].
  apply Nat.eqb_neq. intros E. apply N. now apply inj.
Qed.

Lemma ren_mem x l : existsb (Nat.eqb (f x)) (map f l) = existsb (Nat.eqb x) l.
Proof. induction l as [|y l IH]; [reflexivity|]. simpl. now rewrite ren_eqb, IH. Qed.

Lemma ren_node_ids : node_ids g' = map f (node_ids g).
Proof. unfold node_ids. rewrite (sa_nodes _ _ _ SA), !map_map. reflexivity. Qed.

Lemma ren_has_node u : has_node g' (f u) = has_node g u.
Proof. unfold has_node. rewrite ren_node_ids. apply ren_mem. Qed.

Lemma ren_node_kind u : node_kind g' (f u) = node_kind g u.
Proof.
  unfold node_kind. rewrite (sa_nodes _ _ _ SA).
  induction (g_nodes g) as [|[x k] l IH]; [reflexivity|]. simpl. rewrite ren_eqb.
  destruct (x =? u); [reflexivity|exact IH].
Qed.

Lemma ren_subcircuits u : subcircuits g' (f u) = map f (subcircuits g u).
Proof. unfold subcircuits. rewrite (sa_out _ _ _ SA), !map_map. reflexivity. Qed.

Lemma ren_in_edge e : In e (g_edges g) -> In (ren_edge f e) (g_edges g').
Proof.
  intros H. assert (H' : In e (out_edges g (e_src e))) by (apply filter_In; split; [auto|apply Nat.eqb_refl]).
  apply (in_map (ren_edge f)) in H'. rewrite <- (sa_out _ _ _ SA) in H'. apply filter_In in H'. tauto.
Qed.

Lemma ren_in_edges_nil u : in_edges g' (f u) = [] <-> in_edges g u = [].
Proof.
  split; intros H.
  - destruct (in_edges g u) as [|e l] eqn:E; [reflexivity|exfalso].
    assert (I : In e (in_edges g u)) by (rewrite E; now left).
    apply filter_In in I. destruct I as [I1 I2]. apply Nat.eqb_eq in I2.
    assert (I : In (ren_edge f e) (in_edges g' (f u))).
    { apply filter_In. split; [now apply ren_in_edge|]. simpl. rewrite I2. apply Nat.eqb_refl. }
    now rewrite H in I.
  - destruct (in_edges g' (f u)) as [|e' l] eqn:E; [reflexivity|exfalso].
    assert (I : In e' (in_edges g' (f u))) by (rewrite E; now left).
    apply filter_In in I. destruct I as [I1 I2]. apply (sa_edges _ _ _ SA) in I1. destruct I1 as (e & I1 & ->).
    apply Nat.eqb_eq in I2. simpl in I2. apply inj in I2.
    assert (I : In e (in_edges g u)) by (apply filter_In; split; [auto|now apply Nat.eqb_eq]).
    now rewrite H in I.
Qed.

Lemma ren_root_candidates : root_candidates g' = map f (root_candidates g).
Proof.
  unfold root_candidates. rewrite ren_node_ids. induction (node_ids g) as [|u l IH]; [reflexivity|].
  simpl. pose proof (ren_in_edges_nil u) as H.
  destruct (in_edges g u), (in_edges g' (f u)).
  - simpl. now rewrite IH.
  - destruct H as [_ H]. now specialize (H eq_refl).
  - destruct H as [H _]. now specialize (H eq_refl).
  - exact IH.
Qed.

Lemma ren_root : root g' = option_map f (root g).
Proof. unfold root. rewrite ren_root_candidates. destruct (root_candidates g) as [|a [|b l]]; reflexivity. Qed.

Lemma ren_expand_children cs : forall vis nxt,
  expand_children (map f cs) (map f vis) (map f nxt)
  = (map f (fst (expand_children cs vis nxt)), map f (snd (expand_children cs vis nxt))).
Proof.
  induction cs as [|c cs IH]; intros vis nxt; [reflexivity|]. simpl. rewrite ren_mem.
  destruct (existsb (Nat.eqb c) vis); [apply IH|].
  rewrite <- IH. simpl. now rewrite map_app.
Qed.

Lemma ren_expand_layer ly : forall vis nxt,
  expand_layer g' (map f ly) (map f vis) (map f nxt)
  = (map f (fst (expand_layer g ly vis nxt)), map f (snd (expand_layer g ly vis nxt))).
Proof.
  induction ly as [|u ly IH]; intros vis nxt; [reflexivity|]. simpl. rewrite ren_subcircuits, ren_expand_children.
  destruct (expand_children (subcircuits g u) vis nxt) as [v n]. simpl. apply IH.
Qed.

Lemma ren_bfs fuel : forall cur vis,
  bfs_loop g' fuel (map f cur) (map f vis) = option_map (map (map f)) (bfs_loop g fuel cur vis).
Proof.
  induction fuel as [|n IH]; intros cur vis; destruct cur as [|c cur]; try reflexivity.
  change (map f (c :: cur)) with (f c :: map f cur). cbn [bfs_loop].
  change (f c :: map f cur) with (map f (c :: cur)).
  pose proof (ren_expand_layer (c :: cur) vis []) as H. cbn [map] in H.
  change (f c :: map f cur) with (map f (c :: cur)) in H. rewrite H.
  destruct (expand_layer g (c :: cur) vis []) as [v n']. cbn [fst snd]. rewrite IH.
  destruct (bfs_loop g n n' v); reflexivity.
Qed.

Lemma ren_layers_from r : layers_from g' (f r) = option_map (map (map f)) (layers_from g r).
Proof.
  unfold layers_from. rewrite ren_has_node. destruct (has_node g r); [|reflexivity].
  rewrite (sa_nodes _ _ _ SA), map_length. exact (ren_bfs _ [r] [r]).
Qed.

Lemma ren_layers : layers g' = option_map (map (map f)) (layers g).
Proof. unfold layers. rewrite ren_root. destruct (root g); [apply ren_layers_from|reflexivity]. Qed.

Lemma ren_bottom_up : bottom_up g' = option_map (map f) (bottom_up g).
Proof.
  unfold bottom_up. rewrite ren_layers. destruct (layers g) as [ls|]; [|reflexivity].
  simpl. now rewrite <- map_rev, concat_map.
Qed.

Lemma ren_top_down : top_down g' = option_map (map f) (top_down g).
Proof.
  unfold top_down. rewrite ren_layers. destruct (layers g) as [ls|]; [|reflexivity]. simpl. now rewrite concat_map.
Qed.

Section Pass.
Context {V : Type} (lf : D -> option V) (sumf : list (num * V) -> option V) (prodf : list V -> option V).

Lemma ren_eval_unit st st' u : (forall x, st' (f x) = st x) ->
  eval_unit lf sumf prodf g' st' (f u) = eval_unit lf sumf prodf g st u.
Proof.
  intros H. unfold eval_unit. rewrite ren_node_kind.
  destruct (node_kind g u) as [[d| |]|]; try reflexivity; rewrite (sa_out _ _ _ SA), mapM_map.
  - rewrite (mapM_ext_in _ (fun e => match e_lw e, st (e_dst e) with Some w, Some v => Some (w, v) | _, _ => None end));
      [reflexivity|]. intros e _. simpl. now rewrite H.
  - rewrite (mapM_ext_in _ (fun e => st (e_dst e))); [reflexivity|]. intros e _. simpl. now rewrite H.
Qed.

Lemma ren_eval_order order : forall st st', (forall x, st' (f x) = st x) ->
  match eval_order lf sumf prodf g' (map f order) st', eval_order lf sumf prodf g order st with
  | Some s', Some s => forall x, s' (f x) = s x
  | None, None => True
  | _, _ => False
  end.
Proof.
  induction order as [|u order IH]; intros st st' H; [exact H|].
  unfold eval_order in *. cbn [map foldM]. rewrite (ren_eval_unit st st' u H).
  destruct (eval_unit lf sumf prodf g st u) as [v|]; [|exact I].
  apply IH. intros x. unfold upd. rewrite ren_eqb. destruct (x =? u); auto.
Qed.

(** The answer of a pass is the same, and the results left behind at the units correspond. *)
Lemma ren_run_pass st st' : (forall x, st' (f x) = st x) ->
  match run_pass lf sumf prodf g' st', run_pass lf sumf prodf g st with
  | Some (v', s'), Some (v, s) => v' = v /\ forall x, s' (f x) = s x
  | None, None => True
  | _, _ => False
  end.
Proof.
  intros H. unfold run_pass. rewrite ren_root, ren_bottom_up.
  destruct (root g) as [r|]; [|exact I]. destruct (bottom_up g) as [order|]; [|exact I]. cbn [option_map].
  pose proof (ren_eval_order order st st' H) as E.
  destruct (eval_order lf sumf prodf g' (map f order) st') as [s'|], (eval_order lf sumf prodf g order st) as [s|];
    try contradiction; [|exact I].
  rewrite E. destruct (s r); [split; [reflexivity|exact E]|exact I].
Qed.
End Pass.

Lemma ren_unit_variables dvars fuel : forall u, unit_variables dvars g' fuel (f u) = unit_variables dvars g fuel u.
Proof.
  induction fuel as [|n IH]; intros u; [reflexivity|]. cbn [unit_variables]. rewrite ren_node_kind.
  destruct (node_kind g u) as [[d| |]|]; try reflexivity; rewrite ren_subcircuits.
  - destruct (subcircuits g u); [reflexivity|apply IH].
  - rewrite mapM_map. rewrite (mapM_ext_in _ (unit_variables dvars g n)); [reflexivity|]. intros; apply IH.
Qed.

Lemma ren_circuit_variables dvars : circuit_variables dvars g' = circuit_variables dvars g.
Proof.
  unfold circuit_variables. rewrite ren_root. destruct (root g) as [r|]; [|reflexivity]. cbn [option_map].
  rewrite (sa_nodes _ _ _ SA), map_length. apply ren_unit_variables.
Qed.

Lemma ren_unfolds u t : unfolds g u t -> unfolds g' (f u) t.
Proof.
  revert u t. refine (unfolds_ind' g _ _ _ _).
  - intros u d K. apply unf_leaf. now rewrite ren_node_kind.
  - intros u ts K N H.
    apply unf_sum; [now rewrite ren_node_kind| |].
    + rewrite (sa_out _ _ _ SA). intros E. apply N. destruct (out_edges g u); [reflexivity|discriminate].
    + rewrite (sa_out _ _ _ SA).
      clear - H. induction H as [|e wt es ts H _ IH]; [constructor|]. cbn [map]. constructor; [|exact IH].
      cbn [ren_edge e_lw e_dst]. tauto.
  - intros u ts K H. apply unf_prod; [now rewrite ren_node_kind|].
    rewrite (sa_out _ _ _ SA). clear - H.
    induction H as [|e t es ts H _ IH]; [constructor|]. cbn [map]. constructor; [|exact IH]. cbn [ren_edge e_dst]. tauto.
Qed.
End Rename.
