(** * From networkx circuits to likelihoods of layered circuits, and back (C54) *)
From Coq Require Import List Arith Bool Lia Sorted Permutation Reals Lra ZArith.
From Verif Require Import Num Graph GraphFacts Spec SpecFacts Circuit EvalFacts VarFacts Interval Dist DistFacts TreeLocal ModeFacts NormalizeFacts BayesNet RegionCircuit PropertiesProb PropertiesInteraction
  JaxLayer JaxLayerFacts JaxSpec JaxMeaning JaxToNx JaxToNxFacts PropertiesJaxConvert JaxFromNx JaxFromNxSpec JaxFromNxFacts JaxFromNxTotal JaxFromNxSolid PropertiesJaxFromNx.
Import ListNotations.
Local Set Bullet Behavior "Strict Subproofs".
Local Open Scope nat_scope.

Section Statements.
Variable domain : nat -> nat.
Variables before after : R -> R.

(** A point gives a symbolic variable the number of one of its states. *)
Definition at_a_state (env : nat -> R) (d : dist) : Prop := match d with DSym v _ => exists k, env v = INR k /\ k < domain v | _ => True end.

Lemma nth_column vars env v : StronglySorted lt vars -> In v vars -> env (nth (column vars v) vars 0) = (env v : R).
Proof. intros Hs Hv. pose proof (column_index vars v Hs Hv) as C. apply var_index_some in C. now rewrite (nth_error_nth _ _ 0 C). Qed.

(** There is always a point: the first states. *)
Lemma zero_state t : all_leaves dist_ok t -> all_leaves (leaf_fits domain) t -> all_leaves (at_a_state (fun _ => 0%R)) t.
Proof.
  intros A B. refine (all_leaves_impl _ _ t _ (all_leaves_and _ _ t A B)). intros d [H1 H2]. destruct d as [v i|v a c|v m s|v i m s|v p|v p]; cbn; auto. cbn in H1, H2. destruct H1 as [_ E], H2 as [_ F]. exists 0. split; [reflexivity|].
  destruct p as [|[k q] p]; [cbn in E; lra|]. pose proof (Forall_inv F) as K. cbn in K. lia.
Qed.

Lemma from_nx_solid g t o env vs L : layered_circuit g t -> smooth dist_vars t -> decomposable dist_vars t -> normalised t -> all_leaves dist_ok t -> all_leaves (leaf_fits domain) t ->
  (forall r, root g = Some r -> wide g r /\ orderly g r) -> (forall k, permutes (type_order o k)) -> (forall k c, permutes (scope_order o k c)) ->
  all_leaves (at_a_state env) t -> from_nx domain before after o g = Some (vs, L) ->
  exists c, c_layer c = L /\ solid vs (fun k => env (nth k vs 0)) c.
Proof.
  intros (Hwf & Hterm & r & Hr & Hg & Ht) Sm De No Ok Lf Wi Pt Ps Ev H. unfold from_nx in H. destruct (circuit_variables_spec dist_vars g r t Hr Ht Sm) as (vars & Evs & Hs & Hm). rewrite Evs in H.
  unfold layers in H. rewrite Hr in H. destruct (layers_from g r) as [ls|] eqn:El; [|discriminate]. destruct (from_depth domain before after o g vars 1 ls) as [[|c cs]|] eqn:E; try discriminate. inversion H; subst vs L. clear H.
  assert (Fr : fine domain g vars r) by (exists t; repeat (split; [assumption|]); intros x Hx; now apply Hm).
  destruct Hg as (lv & Hlv0 & Hlv). destruct (Wi r Hr) as [W O].
  assert (F : Forall (solid vars (fun k => env (nth k vars 0))) (c :: cs)); [|exists c; split; [reflexivity|exact (Forall_inv F)]].
  apply (from_depth_solid domain before after g vars Hs Hwf r Fr) with (lv := lv) (o := o) (ls := ls) (depth := 1) (k := 0); auto.
  - intros t' Ut'. rewrite (unfolds_det _ _ _ Ut' _ Ht). exact Hm.
  - intros u d Hu K. destruct (reach_hereditary _ g r t u (hered_all_leaves dist_ok) Hterm Ht Ok Hu) as (t' & U' & L'). inversion U' as [u' d' Y|u' ts Y|u' ts Y]; subst u' t'; try congruence. assert (d' = d) by congruence. now subst.
  - intros u ts Hu U. destruct (reach_hereditary _ g r t u (hered_all_sums convex) Hterm Ht No Hu) as (t' & U' & N'). rewrite (unfolds_det _ _ _ U' _ U) in N'. destruct N' as [[A B] _]. split; [exact A|]. rewrite map_map in B. rewrite B. lra.
  - intros u v p Hu K. destruct (reach_hereditary _ g r t u (hered_all_leaves (at_a_state env)) Hterm Ht Ev Hu) as (t' & U' & L'). inversion U' as [u' d' Y|u' ts Y|u' ts Y]; subst u' t'; try congruence. assert (d' = DSym v p) by congruence. subst d'. cbn in L'.
    rewrite (nth_column vars env v Hs); [exact L'|]. destruct (reach_fine domain g vars r Fr Hterm u Hu) as (t2 & U2 & _ & _ & _ & M2). apply M2. rewrite (unfolds_det _ _ _ U2 _ U'). cbn. auto.
  - unfold layers_from in El. destruct (has_node g r); [|discriminate]. eapply bfs_loop_levels with (P := reach g r); eauto; [intros e He Hp; split; [eapply reach_step; eauto|auto]|intros x [<-|[]]; split; [apply reach_refl|exact Hlv0]].
  - intros x Hx. now apply (layers_from_In g r ls El).
  - intros x e Hx He. apply (layers_from_In g r ls El). apply (layers_from_In g r ls El) in Hx. apply out_edges_In in He as [He1 He2]. now apply (reach_step g r x).
  - now apply (layers_from_NoDup g r ls).
Qed.

(** The layered circuit exists and computes the log-likelihoods of the circuit it was made from.

    What is missing beyond [C54_from_nx_density_partial]: circuits that are not [orderly], whose conversion can raise, and points
    outside the domains of the symbolic variables. *)
Theorem C54_from_nx_likelihood_partial g t o env : layered_circuit g t -> smooth dist_vars t -> decomposable dist_vars t -> normalised t -> all_leaves dist_ok t -> all_leaves (leaf_fits domain) t -> all_leaves leaf_kept t ->
  (forall r, root g = Some r -> wide g r /\ orderly g r) -> (forall k, permutes (type_order o k)) -> (forall k c, permutes (scope_order o k c)) ->
  all_leaves (at_a_state env) t ->
  exists vs L l, from_nx domain before after o g = Some (vs, L) /\ StronglySorted lt vs /\ (forall v, In v vs <-> mentions dist_vars t v) /\
  ll L (map env vs) = Some [l] /\ nexp l = density env t.
Proof.
  intros H1 H2 H3 H4 H5 H6 H7 H8 H9 H10 H11. destruct (C54_from_nx_total_partial domain before after g t o H1 H2 H3 H5 H6 H8 H9 H10) as (vs & L & E).
  assert (Wi : forall r, root g = Some r -> wide g r) by (intros r Hr; now apply H8).
  destruct (C54_from_nx_partial domain before after g t o vs L H1 H2 H3 H6 Wi H9 H10 E) as (Hs & Hm & Hn & Hv & _).
  pose proof (C54_from_nx_density_partial domain before after g t o vs L H1 H2 H3 H4 H6 H7 Wi H9 H10 E env) as D.
  destruct (from_nx_solid g t o env vs L H1 H2 H3 H4 H5 H6 H8 H9 H10 H11 E) as (c & Ec & So). destruct So as [S1 S2 S3 S4 S5]. rewrite Ec in *. rewrite Hv in S4.
  destruct (layer_value (fun k => env (nth k vs 0)) L (seq 0 (length vs)) S1 S5 S4) as (lls & El & Hl & Q). rewrite Hn in Hl, Q. destruct lls as [|l [|l2 lls]]; try discriminate Hl. specialize (Q 0 ltac:(lia)). cbn [nth] in Q.
  exists vs, L, l. split; [exact E|]. split; [exact Hs|]. split; [exact Hm|]. split; [|now rewrite Q, D].
  rewrite <- El. f_equal. rewrite <- (map_map (fun k => nth k vs 0) env). f_equal. apply nth_ext with (d := 0) (d' := 0); [now rewrite map_length, seq_length|]. intros k Hk. rewrite (nth_indep (map _ _) 0 (nth 0 vs 0)) by now rewrite map_length, seq_length. rewrite (map_nth (fun k => nth k vs 0)), seq_nth by exact Hk. reflexivity.
Qed.

(** Converting a circuit to layers and back gives the same tree up to the order of children, with the same density.  The networkx circuit names each variable by
    its column. *)
Theorem C54_round_trip_partial g t o : layered_circuit g t -> smooth dist_vars t -> decomposable dist_vars t -> normalised t -> all_leaves dist_ok t -> all_leaves (leaf_fits domain) t -> all_leaves leaf_kept t ->
  (forall r, root g = Some r -> wide g r /\ orderly g r) -> (forall k, permutes (type_order o k)) -> (forall k c, permutes (scope_order o k c)) ->
  exists vs L g' u t', from_nx domain before after o g = Some (vs, L) /\ to_nx (length vs) true L (mkGraph [] []) = Some (g', [u]) /\
  unfolds g' u t' /\ rearranged t' (layer_tree domain before after vs t) /\ forall env, density (fun c => env (nth c vs 0)) t' = density env t.
Proof.
  intros H1 H2 H3 H4 H5 H6 H7 H8 H9 H10. pose (env := fun _ : nat => 0%R). assert (H11 : all_leaves (at_a_state env) t) by now apply zero_state. destruct (C54_from_nx_total_partial domain before after g t o H1 H2 H3 H5 H6 H8 H9 H10) as (vs & L & E).
  assert (Wi : forall r, root g = Some r -> wide g r) by (intros r Hr; now apply H8).
  destruct (C54_from_nx_partial domain before after g t o vs L H1 H2 H3 H6 Wi H9 H10 E) as (Hs & Hm & Hn & Hv & Hre).
  destruct (from_nx_solid g t o env vs L H1 H2 H3 H4 H5 H6 H8 H9 H10 H11 E) as (c & Ec & So). destruct So as [S1 S2 S3 S4 S5]. rewrite Ec in *.
  destruct (C54_to_nx_partial (length vs) true L S1 S2 S3 (or_introl eq_refl)) as (g' & ids & Eg & _ & Hl & U). rewrite Hn in Hl, U. destruct ids as [|u [|u2 ids]]; try discriminate Hl. specialize (U 0 ltac:(lia)). cbn [nth] in U.
  exists vs, L, g', u, (tree L 0). split; [exact E|]. split; [exact Eg|]. split; [exact U|]. split; [exact Hre|]. exact (C54_from_nx_density_partial domain before after g t o vs L H1 H2 H3 H4 H6 H7 Wi H9 H10 E).
Qed.
End Statements.

(** The mixture of [PropertiesJaxFromNx], converted and evaluated at the second state of its symbolic variable. *)
Example C54_likelihood_case before after o x : (forall k, permutes (type_order o k)) -> (forall k c, permutes (scope_order o k c)) ->
  exists L l g' u t', from_nx (fun _ => 2) before after o mix = Some ([0; 1], L) /\ ll L [x; 1%R] = Some [l] /\ nexp l = density (fun v => if v =? 0 then x else 1%R) (mix_at 0) /\
  to_nx 2 true L (mkGraph [] []) = Some (g', [u]) /\ unfolds g' u t' /\ forall env, density (fun c => env (nth c [0; 1] 0)) t' = density env (mix_at 0).
Proof.
  intros Pt Ps. destruct mix_fine as (Sm & De & No & Ok & Fi & Ke). set (env := fun v => if v =? 0 then x else 1%R).
  assert (St : all_leaves (at_a_state (fun _ => 2) env) (mix_at 0)). { cbn. repeat split; auto; exists 1; split; auto. }
  destruct (C54_from_nx_likelihood_partial (fun _ => 2) before after mix (mix_at 0) o env mix_circuit Sm De No Ok Fi Ke mix_orderly Pt Ps St) as (vs & L & l & E & Hs & Hm & El & Q).
  destruct (C54_round_trip_partial (fun _ => 2) before after mix (mix_at 0) o mix_circuit Sm De No Ok Fi Ke mix_orderly Pt Ps) as (vs' & L' & g' & u & t' & E' & Eg & U & _ & D).
  assert (vs = [0; 1]) as ->. { apply sorted_lt_ext; [exact Hs|repeat constructor|]. intros y. rewrite Hm. cbn. intuition. } rewrite E in E'. inversion E'; subst vs' L'.
  exists L, l, g', u, t'. auto 8.
Qed.

Print Assumptions C54_from_nx_likelihood_partial.
Print Assumptions C54_round_trip_partial.
