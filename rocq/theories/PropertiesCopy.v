(** * Properties C11, C19 - C22: copies, JSON, equality and the decomposability check *)
From Coq Require Import List Arith Bool Lia Reals Lra ZArith Sorting.Sorted.
From Verif Require Import Num Graph GraphFacts Spec SpecFacts Circuit EvalFacts VarFacts PropertiesQuery Interval GaussInt Dist DistFacts
  TreeProb PropertiesProb Simplify SimplifyFacts TreeLocal DagFacts PropertiesSimplify PropertiesMarginal Conditional
  Rename Copy CopyFacts EqFacts Heap HeapFacts HeapOps World WorldFacts.
Import ListNotations.
Local Open Scope R_scope.
Local Open Scope nat_scope.

(** [g'] is [g] built from other unit objects: one new object [f u] for every unit [u], in the same order, with the same
    kind and parameters, and the same edges in the same order with the same log weights. *)
Definition same_circuit (f : id -> id) (g g' : graph dist) : Prop :=
  (forall x y, f x = f y -> x = y) /\
  g_nodes g' = map (fun p => (f (fst p), snd p)) (g_nodes g) /\
  (forall u, map (fun e => (e_dst e, e_lw e)) (out_edges g' (f u)) = map (fun e => (f (e_dst e), e_lw e)) (out_edges g u)) /\
  (forall e', In e' (g_edges g') -> exists e, In e (g_edges g) /\ e_src e' = f (e_src e) /\ e_dst e' = f (e_dst e) /\ e_lw e' = e_lw e).

(** Both circuits answer every query alike: the same variables, and the same value or exception for the likelihood, the
    cdf and the probability of an event, whatever functions the distributions have for them. *)
Definition same_answers (g g' : graph dist) : Prop :=
  circuit_variables dist_vars g' = circuit_variables dist_vars g /\
  (forall dll row, option_map fst (log_likelihood dist_vars dll g' row empty_store)
                   = option_map fst (log_likelihood dist_vars dll g row empty_store)) /\
  (forall dcdf row, option_map fst (cdf dist_vars dcdf g' row empty_store)
                    = option_map fst (cdf dist_vars dcdf g row empty_store)) /\
  (forall dprob, option_map fst (probability_of_simple_event dprob g' empty_store)
                 = option_map fst (probability_of_simple_event dprob g empty_store)).

Lemma same_as_circuit f g g' : same_as f g g' -> same_circuit f g g'.
Proof.
  intros S. split; [exact (sa_inj _ _ _ S)|]. split; [exact (sa_nodes _ _ _ S)|]. split.
  - intros u. rewrite (sa_out _ _ _ S), map_map. reflexivity.
  - intros e' He'. destruct (sa_edges _ _ _ S e' He') as (e & He & ->). exists e. auto.
Qed.

Lemma same_as_answers f g g' : same_as f g g' -> same_answers g g'.
Proof.
  intros S. pose proof (ren_circuit_variables f g g' S dist_vars) as V.
  assert (R : forall lf sumf prodf, option_map fst (run_pass lf sumf prodf g' (V := num) empty_store)
                                    = option_map fst (run_pass lf sumf prodf g empty_store)).
  { intros lf sumf prodf. pose proof (ren_run_pass f g g' S lf sumf prodf empty_store empty_store (fun _ => eq_refl)) as X.
    destruct (run_pass lf sumf prodf g' empty_store) as [[v' s']|], (run_pass lf sumf prodf g empty_store) as [[v s]|];
      try contradiction; [|reflexivity]. destruct X as [-> _]. reflexivity. }
  split; [exact V|]. unfold log_likelihood, cdf, probability_of_simple_event. rewrite V. split; [|split].
  - intros dll row. destruct (circuit_variables dist_vars g); [apply R|reflexivity].
  - intros dcdf row. destruct (circuit_variables dist_vars g); [apply R|reflexivity].
  - intros dprob. apply R.
Qed.

(** ** C11 *)

(** For all circuits of a program, all events and all variable sets: the receiver [i] of log_conditional (and of
    conditional, which only turns the returned number into its exponential) and of marginal, and every other circuit that
    existed before the call, lists the same units and edges afterwards, with the same weights and parameters. *)
Theorem C11_log_conditional_keeps W i es sts W' : world_ok W -> w_log_conditional W i es sts = Some W' ->
  forall p, p < List.length (w_circs W) -> nth_error (w_circs W') p = nth_error (w_circs W) p /\ w_view W' p = w_view W p.
Proof.
  intros K E p L. unfold w_log_conditional in E. destruct (w_copy W i) as [W1|] eqn:E1; [|discriminate].
  refine (proj2 (safe_derive (fun _ => False) W p i _ W1 W' _ E1 E)). split; [exact K|]. split; [exact L|]. intros k [].
Qed.

Theorem C11_marginal_keeps W i vs W' : world_ok W -> w_marginal W i vs = Some W' ->
  forall p, p < List.length (w_circs W) -> nth_error (w_circs W') p = nth_error (w_circs W) p /\ w_view W' p = w_view W p.
Proof.
  intros K E p L. unfold w_marginal in E. destruct (w_copy W i) as [W1|] eqn:E1; [|discriminate].
  refine (proj2 (safe_derive (fun _ => False) W p i _ W1 W' _ E1 E)). split; [exact K|]. split; [exact L|]. intros k [].
Qed.

(** The same for every later history: as long as a program derives new circuits and changes only these, no circuit that
    existed at the beginning changes. *)
Theorem C11_histories W l W' : world_ok W -> Forall (targets (fun k => List.length (w_circs W) <= k)) l ->
  program l W = Some W' ->
  forall p, p < List.length (w_circs W) -> nth_error (w_circs W') p = nth_error (w_circs W) p /\ w_view W' p = w_view W p.
Proof.
  intros K T E p L. apply (safe_program (fun k => List.length (w_circs W) <= k) l W p W'); auto.
  - split; [exact K|]. split; [exact L|]. intros k Ak Nk Lk. lia.
  - eapply Forall_impl; [|exact T]. intros [i|i o|i es sts|i vs] Ta o' X; try discriminate. cbn in Ta. injection X as -> _. lia.
Qed.

(** ** C20 *)

(** Copying a circuit never raises; the copy consists of new objects, is the same circuit and answers alike. *)
Theorem C20_copy_lossless W i g : world_ok W -> w_view W i = Some g -> wf g ->
  exists W' g' f, w_copy W i = Some W' /\ w_view W' (List.length (w_circs W)) = Some g' /\
    same_circuit f g g' /\ same_answers g g' /\ (forall u, ~ In (f u) (flat_map c_units (w_circs W))).
Proof.
  intros K V F. unfold w_view in V. destruct (nth_error (w_circs W) i) as [c|] eqn:Ec; [|discriminate].
  destruct (h_copy_view _ _ _ (world_circ_ok W i c K Ec) V) as (H' & c' & EC & EV).
  pose proof (circuit_copy_same_as (copy_name (w_heap W) c) g (copy_name_inj _ _) F) as S.
  exists (mkWorld H' (w_circs W ++ [c'])), (circuit_copy (copy_name (w_heap W) c) g), (copy_name (w_heap W) c).
  split; [unfold w_copy; now rewrite Ec, EC|]. split.
  - unfold w_view. cbn [w_circs w_heap]. rewrite nth_error_app2 by lia. rewrite Nat.sub_diag. exact EV.
  - split; [exact (same_as_circuit _ _ _ S)|]. split; [exact (same_as_answers _ _ _ S)|].
    intros u Hu. apply in_flat_map in Hu. destruct Hu as (x & Hx & Hu). apply In_nth_error in Hx. destruct Hx as [k Hk].
    pose proof (proj1 (wo_circ _ K k x Hk) _ Hu) as L. unfold copy_name in L. lia.
Qed.

(** No later in-place operation on the copy changes the original (or any other circuit), and none on the original, or on
    any other circuit, changes the copy; for all sequences of calls, with further copies in between. *)
Theorem C20_copy_independent W i W' : world_ok W -> w_copy W i = Some W' ->
  (forall l W'', Forall (targets (fun k => List.length (w_circs W) <= k)) l -> program l W' = Some W'' ->
     forall p, p < List.length (w_circs W) -> nth_error (w_circs W'') p = nth_error (w_circs W) p /\ w_view W'' p = w_view W p) /\
  (forall l W'', Forall (fun a => forall o, a <> ActInPlace (List.length (w_circs W)) o) l -> program l W' = Some W'' ->
     w_view W'' (List.length (w_circs W)) = w_view W' (List.length (w_circs W))).
Proof.
  intros K E. split.
  - intros l W'' T P p L. apply (C11_histories W (ActCopy i :: l) W'' K); [constructor; [exact I|exact T]| |exact L].
    unfold program. cbn [foldM act]. rewrite E. exact P.
  - intros l W'' N P. pose proof (copy_len W K i W' E) as LN.
    apply (safe_program (fun _ => True) l W' (List.length (w_circs W)) W''); auto.
    + split; [exact (copy_ok W K i W' E)|]. split; [lia|]. intros k _ Nk Lk. apply no_common_sym.
      assert (Lk' : k < List.length (w_circs W)) by lia. destruct (copy_other W K i W' k E Lk') as (_ & _ & X & _). exact X.
    + clear. induction l as [|a l IH]; constructor; [destruct a; exact I|exact IH].
Qed.

(** ** C19 *)

(** For all circuits, all identity hashes [h] that tell the units of the circuit apart, and all identities [nu] of the
    objects created while reading.  [keys_ok] says that a probability dictionary has no key twice. *)
Theorem C19_json_round_trip g h nu : wf g -> (forall u d, In (u, ULeaf d) (g_nodes g) -> keys_ok d) ->
  (forall u v, In u (node_ids g) -> In v (node_ids g) -> h u = h v -> u = v) -> (forall j k, nu j = nu k -> j = k) ->
  exists g' f, circuit_of_json nu (circuit_to_json h g) = Some g' /\ same_circuit f g g' /\ same_answers g g'.
Proof.
  intros W K Hh Hn. destruct (json_same_as g W K h Hh nu Hn) as (g' & E & S). exists g', (json_ren g nu).
  split; [exact E|]. split; [exact (same_as_circuit _ _ _ S)|exact (same_as_answers _ _ _ S)].
Qed.

(** ** C21 *)

Definition equal_means_same (ga gb : graph dist) : Prop :=
  circuit_eq leaf_class ga gb = Some true -> same_likelihood dist_vars dist_ll ga gb.

Definition C21_full : Prop := forall ga gb ra rb ta tb, valid_tree ga ra ta -> valid_tree gb rb tb -> equal_means_same ga gb.

(** Two circuits of one uniform leaf each: [==] looks at classes, edges and weights only. *)
Definition leaf_graph (d : dist) : graph dist := mkGraph [(0, ULeaf d)] [].

Lemma leaf_valid d : dist_ok d -> valid_tree (leaf_graph d) 0 (PLeaf d).
Proof.
  intros O. constructor; cbn; auto.
  - split; [constructor; cbn; [repeat constructor; intros []|constructor|intros e []|intros e []]|].
    split; [exists (fun _ => 0); intros e []|]. split; [now left|]. split; [constructor|]. split; [|intros []].
    cbn. intros u [<-|[]] N. congruence.
  - intros e k [].
  - now apply unf_leaf.
Qed.

Theorem C21_equality_refuted : ~ C21_full.
Proof.
  intros H.
  assert (O : forall a b, (a < b)%R -> dist_ok (DUnif 0 (mkSint (Fin a) (Fin b) true true))).
  { intros a b Hb. exists a, b. repeat split; auto. }
  pose proof (H _ _ _ _ _ _ (leaf_valid _ (O 0%R 1%R ltac:(lra))) (leaf_valid _ (O 2%R 3%R ltac:(lra))) eq_refl
                (fun _ => (1/2)%R) empty_store empty_store) as X.
  destruct X as (vars & ll & s & s' & V & _ & A & B).
  vm_compute in V. injection V as <-. unfold log_likelihood in A, B. cbn in A, B.
  unfold in_sint, above, below in A, B. cbn in A, B.
  destruct (Rleb_spec 0 (1/2)); [|lra]. destruct (Rleb_spec (1/2) 1); [|lra]. destruct (Rleb_spec 2 (1/2)); [lra|].
  cbn in A, B. injection A as A _. injection B as B _. rewrite <- B in A.
  destruct (total_order_T (1 + - 0) 0) as [[?|?]|?]; try lra; discriminate A.
Qed.

(** Proved part: if moreover the leaves of both circuits hold, in the same order, equal distributions.  Missing: circuits
    whose leaves differ, where the claim is false.  [==] returns on all layered circuits, and says True exactly when the
    circuits have the same shape, weights and leaf classes. *)
Theorem C21_equality_partial ga gb ta tb : layered_circuit ga ta -> layered_circuit gb tb -> smooth dist_vars ta ->
  leaf_list ta = leaf_list tb -> equal_means_same ga gb.
Proof.
  intros [Wa [La [ra [Ra [Ga Ua]]]]] [Wb [Lb [rb [Rb [Gb Ub]]]]] S E Q.
  destruct (circuit_eq_spec leaf_class ga gb ra rb ta tb Ra Rb Ua Ub) as (b & Eb & Hb). rewrite Q in Eb. injection Eb as <-.
  pose proof (same_shape_eq leaf_class ta tb (proj1 Hb eq_refl) E) as <-.
  intros x st st'.
  destruct (log_likelihood_correct dist_vars dist_ll ga ra ta x st Wa La Ra Ga Ua S) as [vars [A1 [A2 [A3 [ll [s [A4 A5]]]]]]].
  destruct (log_likelihood_correct dist_vars dist_ll gb rb ta x st' Wb Lb Rb Gb Ub S) as [vars' [B1 [B2 [B3 [ll' [s' [B4 B5]]]]]]].
  assert (vars' = vars) as ->.
  { apply sorted_same; auto. intros v. rewrite A3, B3. reflexivity. }
  exists vars, ll, s, s'. split; [exact A1|]. split; [exact B1|]. split; [exact A4|]. rewrite B4. do 3 f_equal.
  rewrite <- (nlog_nexp ll), <- (nlog_nexp ll'). congruence.
Qed.

Theorem C21_equality_complete ga gb t : layered_circuit ga t -> layered_circuit gb t -> circuit_eq leaf_class ga gb = Some true.
Proof.
  intros [Wa [La [ra [Ra [Ga Ua]]]]] [Wb [Lb [rb [Rb [Gb Ub]]]]].
  destruct (circuit_eq_spec leaf_class ga gb ra rb t t Ra Rb Ua Ub) as (b & Eb & Hb). rewrite Eb. f_equal. apply Hb.
  clear. induction t as [d|l IH|l IH] using pc_ind'; cbn [same_shape]; [reflexivity| |].
  - induction IH as [|[w t] l H _ IHl]; [exact I|]. cbn in *. auto.
  - induction IH as [|t l H _ IHl]; [exact I|]. cbn in *. auto.
Qed.

(** ** C22 *)

Definition decides_decomposability (g : graph dist) (t : pc dist) : Prop :=
  exists b, is_decomposable dist_vars g = Some b /\ (b = true <-> decomposable dist_vars t).

Definition C22_full : Prop := forall g t, layered_circuit g t -> smooth dist_vars t -> decides_decomposability g t.

(** A product of two distributions over the same variable. *)
Definition square_graph : graph dist :=
  mkGraph [(0, UProd); (1, ULeaf (DGauss 0 0%R 1%R)); (2, ULeaf (DGauss 0 0%R 1%R))] [mkEdge 0 1 None; mkEdge 0 2 None].
Definition square_tree : pc dist := PProd [PLeaf (DGauss 0 0%R 1%R); PLeaf (DGauss 0 0%R 1%R)].

Lemma square_layered : layered_circuit square_graph square_tree.
Proof.
  split; [concrete_wf|]. split; [intros e d H; cbn in H; destruct H as [<-|[<-|[]]]; discriminate|].
  exists 0. split; [reflexivity|]. split.
  - exists (fun u => if u =? 0 then 0 else 1). split; [reflexivity|]. on_edges.
  - unfold square_tree. unf.
Qed.

Theorem C22_decomposability_refuted : ~ C22_full.
Proof.
  intros H. destruct (H _ _ square_layered) as (b & E & B).
  - cbn. tauto.
  - cbn in E. injection E as <-. destruct (proj1 B eq_refl) as [[[X _] _] _]. apply (X 0). cbn. auto.
Qed.

(** Proved part: on layered circuits the check returns, and it is right for decomposable circuits; and asking a product unit itself decides
    whether its children have pairwise disjoint variables.  Missing: circuits that are not decomposable; the check of the
    circuit looks for product units among the leaves, finds none and says True. *)
Theorem C22_decomposability_partial g t : layered_circuit g t ->
  is_decomposable dist_vars g = Some true /\ (decomposable dist_vars t -> decides_decomposability g t).
Proof.
  intros [W [L [r [R [G U]]]]].
  assert (E : is_decomposable dist_vars g = Some true).
  { unfold is_decomposable. destruct (circuit_leaves g) as [ls|] eqn:EL.
    - rewrite (leaves_no_products g ls EL). reflexivity.
    - exfalso. unfold circuit_leaves in EL. rewrite R in EL.
      assert (RL : exists rs, reachable_list g r = Some rs).
      { destruct (bottom_up_spec g r W R) as [ls [E1 _]]. unfold reachable_list. rewrite E1. eauto. }
      destruct RL as [rs RL]. rewrite RL in EL. destruct (node_kind g r) as [[d| |]|]; discriminate. }
  split; [exact E|]. intros D. exists true. tauto.
Qed.

Theorem C22_product_check g u ts : unfolds g u (PProd ts) -> smooth dist_vars (PProd ts) ->
  exists b, product_is_decomposable dist_vars g u = Some b /\
    (b = true <-> pairwise_disjoint (map (fun t' => mentions dist_vars t') ts)).
Proof. apply product_check. Qed.

(** It raises if one of the children is a sum unit without subcircuits, which has no variables. *)
Theorem C22_product_raises g u c : In c (subcircuits g u) -> node_kind g c = Some USum -> subcircuits g c = [] ->
  product_is_decomposable dist_vars g u = None.
Proof.
  intros Hc Hk Hs. unfold product_is_decomposable.
  assert (E : unit_variables dist_vars g (S (List.length (g_nodes g))) c = None) by (cbn [unit_variables]; now rewrite Hk, Hs).
  replace (mapM (unit_variables dist_vars g (S (List.length (g_nodes g)))) (subcircuits g u)) with (@None (list (list nat))); [reflexivity|].
  revert Hc E. generalize (unit_variables dist_vars g (S (List.length (g_nodes g)))) as f. intros f. clear. induction (subcircuits g u) as [|a l IH]; [now intros []|]. intros [<-|Hc] E; cbn.
  - now rewrite E.
  - destruct (f a); [|reflexivity]. now rewrite <- IH.
Qed.
Example C22_product_raises_case :
  product_is_decomposable dist_vars (mkGraph [(0, UProd); (1, USum)] [mkEdge 0 1 None]) 0 = None.
Proof. apply C22_product_raises with (c := 1); [now left|reflexivity|reflexivity]. Qed.

(** ** A concrete program *)

(** The mixture [demo_graph] as objects: the distributions 0-3, of which 1 and 3 hold the dictionaries 0 and 1; next to it
    a second circuit, a single leaf. *)
Definition demo_world : world :=
  mkWorld (mkHeap [USum; UProd; UProd; ULeaf 0; ULeaf 1; ULeaf 2; ULeaf 3; ULeaf 4]
                  [OCont (DGauss 0 1%R 2%R); ODisc false 1 0; OCont (DUnif 0 (iclosed_open 0%R 4%R)); ODisc false 1 1;
                   OCont (DGauss 0 0%R 1%R)]
                  [[(1%Z, (1/3)%R); (4%Z, (2/3)%R)]; [(4%Z, 1%R)]])
          [mkCirc [0; 1; 2; 3; 4; 5; 6] (g_edges demo_graph); mkCirc [7] []].

Example demo_world_ok : world_ok demo_world /\ w_view demo_world 0 = Some demo_graph.
Proof.
  split; [|reflexivity]. constructor; cbn.
  - split; cbn.
    + intros s v p a E. do 5 (destruct a as [|a]; [cbn in E; try discriminate; injection E as _ _ <-; lia|]). destruct a; discriminate.
    + intros u a E. do 8 (destruct u as [|u]; [cbn in E; try discriminate; injection E as <-; lia|]). destruct u; discriminate.
  - intros [|[|i]] c E; cbn in E; try (destruct i; discriminate); injection E as <-; cbn.
    + split; [intros u Hu; cbn in Hu; cbn; lia|]. repeat constructor; cbn; intuition discriminate.
    + split; [intros u Hu; cbn in Hu; cbn; lia|]. repeat constructor; cbn; intuition discriminate.
  - intros [|[|i]] [|[|j]] c c' E E' N; cbn in E, E'; try congruence; try (destruct i; discriminate); try (destruct j; discriminate);
      injection E as <-; injection E' as <-; cbn; lia.
Qed.

(** Copy circuit 0, simplify and marginalise the copy, derive another marginal: circuit 0 stays as it was. *)
Definition demo_program : list action :=
  [ActCopy 0; ActInPlace 2 OpSimplify; ActMarginal 0 [0]; ActInPlace 2 (OpMarginal [1])].

Example demo_program_runs : exists W', program demo_program demo_world = Some W' /\ List.length (w_circs W') = 4 /\
  w_view W' 0 = Some demo_graph /\ w_view W' 2 <> w_view W' 3.
Proof.
  eexists. split; [vm_compute; reflexivity|]. split; [reflexivity|]. split; [vm_compute; reflexivity|]. vm_compute. discriminate.
Qed.

Example demo_json : exists g' f, circuit_of_json (fun n => 10 + n) (circuit_to_json Z.of_nat demo_graph) = Some g' /\
  same_circuit f demo_graph g' /\ same_answers demo_graph g'.
Proof.
  apply C19_json_round_trip.
  - apply demo_ok.
  - intros u d H. cbn in H. repeat (destruct H as [H|H]; [try discriminate; injection H as _ <-; cbn; auto;
      repeat constructor; cbn; intuition discriminate|]). destruct H.
  - intros u v _ _ H. lia.
  - intros j k H. lia.
Qed.

(** The same mixture built from other objects is equal. *)
Definition demo_again : graph dist :=
  mkGraph [(17, USum); (11, UProd); (12, UProd); (13, ULeaf (DGauss 0 1%R 2%R));
           (14, ULeaf (DInt 1 [(1%Z, (1/3)%R); (4%Z, (2/3)%R)]));
           (15, ULeaf (DUnif 0 (iclosed_open 0%R 4%R))); (16, ULeaf (DInt 1 [(4%Z, 1%R)]))]
    [mkEdge 17 11 (Some (Fin (ln (1/4)))); mkEdge 17 12 (Some (Fin (ln (3/4))));
     mkEdge 11 13 None; mkEdge 11 14 None; mkEdge 12 15 None; mkEdge 12 16 None].

Lemma demo_again_layered : layered_circuit demo_again demo_tree.
Proof.
  split; [concrete_wf|]. split.
  - intros e d H. cbn in H. repeat (destruct H as [<-|H]; [cbn; discriminate|]). destruct H.
  - exists 17. split; [reflexivity|]. split.
    + exists (fun u => if u =? 17 then 0 else if u <=? 12 then 1 else 2). split; [reflexivity|].
      intros e H _. cbn in H. repeat (destruct H as [<-|H]; [reflexivity|]). destruct H.
    + unfold demo_tree. unf.
Qed.

Example demo_equal : circuit_eq leaf_class demo_graph demo_again = Some true /\
  same_likelihood dist_vars dist_ll demo_graph demo_again.
Proof.
  destruct demo_ok as [L [_ [_ [S _]]]].
  pose proof (C21_equality_complete _ _ demo_tree L demo_again_layered) as E. split; [exact E|].
  exact (C21_equality_partial _ _ demo_tree demo_tree L demo_again_layered S eq_refl E).
Qed.

Print Assumptions C11_log_conditional_keeps.
Print Assumptions C11_marginal_keeps.
Print Assumptions C11_histories.
Print Assumptions C19_json_round_trip.
Print Assumptions C20_copy_lossless.
Print Assumptions C20_copy_independent.
Print Assumptions C21_equality_refuted.
Print Assumptions C21_equality_partial.
Print Assumptions C21_equality_complete.
Print Assumptions C22_decomposability_refuted.
Print Assumptions C22_decomposability_partial.
Print Assumptions C22_product_check.
Print Assumptions C22_product_raises.
