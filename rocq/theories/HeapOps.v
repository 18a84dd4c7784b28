(** * HeapOps: every operation is a step; copies are new

    Proof file. *)
From Coq Require Import List Arith Bool Lia ZArith Reals.
From Verif Require Import Num Graph GraphFacts Spec SpecFacts Circuit Interval Dist DistFacts Simplify Conditional
  Rename Copy CopyFacts Heap HeapFacts.
Import ListNotations.
Local Open Scope nat_scope.

(** A circuit whose units exist, each once, in a heap whose references exist. *)
Definition circ_ok (H : heap) (c : circ) : Prop := heap_ok H /\ in_heap H c /\ NoDup (c_units c).

Definition ostep (H : heap) (c : circ) (H' : heap) (c' : circ) : Prop := step H c H' c' /\ NoDup (c_units c').

Lemma ostep_ok H c H' c' : ostep H c H' c' -> circ_ok H' c'.
Proof. intros [S N]. split; [exact (st_ok _ _ _ _ S)|split; [exact (st_in _ _ _ _ S)|exact N]]. Qed.

Lemma ostep_trans H c H1 c1 H2 c2 : ostep H c H1 c1 -> ostep H1 c1 H2 c2 -> ostep H c H2 c2.
Proof. intros [S _] [S' N]. split; [exact (step_trans _ _ _ _ _ _ S S')|exact N]. Qed.

Definition no_circ : circ := mkCirc [] [].

Lemma no_circ_in H : in_heap H no_circ.
Proof. intros u []. Qed.

Lemma no_circ_holds H a : ~ holds H no_circ a.
Proof. intros (u & [] & _). Qed.

(** Something that only created objects may be put before a step of any circuit. *)
Lemma step_weaken H c H' c' : step H no_circ H' c' -> step H c H' c'.
Proof.
  intros [f o i u d]. constructor; auto.
  - eapply frame_weaken; [| |exact f]; [intros x _ []|intros a _ X; elim (no_circ_holds _ _ X)].
  - intros x Hx L. destruct (u x Hx L).
  - intros a Ha L. elim (no_circ_holds _ _ (d a Ha L)).
Qed.

(** ** Structural operations *)

Lemma struct_step H c g : circ_ok H c -> nsub (ref_graph H c) g ->
  ostep H c (fst (commit H 0 g)) (snd (commit H 0 g)).
Proof.
  intros (O & I & N) S. pose proof (ref_graph_inv H c O I N) as G.
  destruct (commit_step' H c O I H 0 g (hext_refl H)) as (St & Nd & _).
  - pose proof (ginv_nsub H c _ _ _ _ S G) as G'. destruct G' as [nd gu gk]. constructor; [exact nd| |exact gk].
    intros u Hu. left. destruct (gu u Hu) as [X|X]; [exact X|lia].
  - split; [exact St|exact Nd].
Qed.

Lemma h_simplify_step H c H' c' : circ_ok H c -> h_simplify H c = Some (H', c') -> ostep H c H' c'.
Proof.
  intros O. unfold h_simplify. destruct (simplify _ _) as [g|] eqn:E; [|discriminate]. intros X.
  pose proof (struct_step H c g O (simplify_nsub _ _ _ E)) as S. injection X as <- <-. exact S.
Qed.

Lemma h_normalize_step H c H' c' : circ_ok H c -> h_normalize H c = Some (H', c') -> ostep H c H' c'.
Proof.
  intros O. unfold h_normalize. destruct (normalize _) as [g|] eqn:E; [|discriminate]. intros X.
  pose proof (struct_step H c g O (nsub_eq _ _ (normalize_nodes _ _ E))) as S. injection X as <- <-. exact S.
Qed.

(** ** Marginalisation *)

Lemma unit_marginal_ginv H c H1 vs nx g u g' b : unit_marginal (h_marg H1) vs g u = Some (g', b) ->
  ginv H c H1 nx g -> ginv H c H1 nx g'.
Proof.
  unfold unit_marginal. destruct (node_kind g u) as [[a| |]|] eqn:K; [| | |discriminate].
  - destruct (h_marg H1 vs a) as [a'|] eqn:EM.
    + intros E. injection E as <- <-. intros G. apply ginv_set_kind; [|exact G].
      assert (a' = a) as ->.
      { unfold h_marg in EM. destruct (read_dist H1 a); [|discriminate]. destruct (existsb _ _); congruence. }
      exact (gi_k _ _ _ _ _ G u _ (node_kind_In _ _ _ K)).
    + destruct (remove_node g u) as [g1|] eqn:E1; [|discriminate]. intros E. injection E as <- <-.
      apply ginv_nsub. exact (remove_node_nsub _ _ _ E1).
  - destruct (subcircuits g u).
    + destruct (remove_node g u) as [g1|] eqn:E1; [|discriminate]. intros E. injection E as <- <-.
      apply ginv_nsub. exact (remove_node_nsub _ _ _ E1).
    + intros E. injection E as <- <-. auto.
  - destruct (subcircuits g u).
    + destruct (remove_node g u) as [g1|] eqn:E1; [|discriminate]. intros E. injection E as <- <-.
      apply ginv_nsub. exact (remove_node_nsub _ _ _ E1).
    + intros E. injection E as <- <-. auto.
Qed.

Lemma marginal_loop_ginv H c H1 vs nx g g' o : marginal_loop (h_marg H1) vs g = Some (g', o) ->
  ginv H c H1 nx g -> ginv H c H1 nx g'.
Proof.
  unfold marginal_loop. destruct (bottom_up g) as [order|]; [|discriminate]. intros E G.
  assert (P : ginv H c H1 nx (fst (g', o))); [|exact P].
  revert E G. generalize (@None (id * bool)). intros o0 E G.
  refine (foldM_inv (fun s => ginv H c H1 nx (fst s)) _ _ _ _ _ E G).
  intros [h ho] u [h' ho'] Eh Gh. cbn [fst] in *.
  destruct (unit_marginal (h_marg H1) vs h u) as [[h1 b]|] eqn:EU; [|discriminate]. injection Eh as <- _.
  exact (unit_marginal_ginv _ _ _ _ _ _ _ _ _ EU Gh).
Qed.

Lemma ginv_commit_step H c g nx : circ_ok H c -> nx <= List.length (h_units H) -> ginv H c H nx g ->
  ostep H c (fst (commit H 0 g)) (snd (commit H 0 g)).
Proof.
  intros (O & I & N) L G.
  destruct (commit_step' H c O I H 0 g (hext_refl H)) as (St & Nd & _).
  - destruct G as [nd gu gk]. constructor; [exact nd| |exact gk].
    intros u Hu. left. destruct (gu u Hu) as [X|X]; [exact X|lia].
  - split; [exact St|exact Nd].
Qed.

Lemma h_marginal_in_place_step vs H c H' c' b : circ_ok H c -> h_marginal_in_place vs H c = Some (H', c', b) ->
  ostep H c H' c'.
Proof.
  intros K. pose proof K as (O & I & N). pose proof (ref_graph_inv H c O I N) as G. unfold h_marginal_in_place, marginal_in_place.
  destruct (marginal_loop (h_marg H) vs (ref_graph H c)) as [[g1 [[u [|]]|]]|] eqn:EL; try discriminate.
  - pose proof (marginal_loop_ginv H c H vs _ _ _ _ EL G) as G1.
    destruct (remove_unreachable_nodes g1 u) as [g2|] eqn:E2; [|discriminate].
    destruct (simplify _ g2) as [g3|] eqn:E3; [|discriminate]. intros X.
    assert (S : ostep H c (fst (commit H 0 g3)) (snd (commit H 0 g3))).
    { eapply ginv_commit_step; [exact K|apply Nat.le_refl|].
      eapply ginv_nsub; [exact (simplify_nsub _ _ _ E3)|]. eapply ginv_nsub; [exact (remove_unreachable_nsub _ _ _ E2)|exact G1]. }
    injection X as <- <- _. exact S.
  - pose proof (marginal_loop_ginv H c H vs _ _ _ _ EL G) as G1. intros X.
    pose proof (ginv_commit_step H c g1 _ K (Nat.le_refl _) G1) as S. injection X as <- <- _. exact S.
Qed.

(** ** Conditioning on a simple set *)

Lemma h_conditional_simple_step e st H c H' c' lp st' : circ_ok H c ->
  h_conditional_simple e st H c = Some (H', c', lp, st') -> ostep H c H' c'.
Proof.
  intros (O & I & N). unfold h_conditional_simple.
  destruct (bottom_up (ref_graph H c)) as [order|]; [|discriminate].
  destruct (foldM (h_unit_conditional e) order _) as [[H1 [[g1 st1] nx]]|] eqn:EF; [|discriminate].
  assert (P : pinv H c (H1, (g1, st1, nx))).
  { eapply (foldM_inv (pinv H c)); [|exact EF|].
    - intros x u y E. eapply h_unit_conditional_inv; eauto.
    - split; [apply hext_refl|]. split; [apply Nat.le_refl|]. exact (ref_graph_inv H c O I N). }
  destruct P as (X & L & G). cbn [fst snd] in *.
  destruct (conditional_finish g1 st1) as [[[g5|] v]|] eqn:EC; [| |discriminate].
  - intros E. destruct (commit_step' H c O I H1 nx g5 X (ginv_nsub _ _ _ _ _ _ (conditional_finish_nsub _ _ _ _ EC) G)) as (S & Nd & _).
    injection E as <- <- _ _. split; [exact S|exact Nd].
  - destruct (without_impossible g1 st1) as [g2|] eqn:EW; [|discriminate]. intros E.
    destruct (commit_step' H c O I H1 nx g2 X (ginv_nsub _ _ _ _ _ _ (without_impossible_nsub _ _ _ EW) G)) as (S & Nd & _).
    injection E as <- <- _ _. split; [exact S|exact Nd].
Qed.

(** ** Copying *)

Lemma h_copy_unit_inv H0 H ns u H1 ns1 : heap_ok H0 -> hext H0 H ->
  Forall (fun p => kind_ok H0 no_circ H (snd p)) ns ->
  h_copy_unit H0 (H, ns) u = Some (H1, ns1) ->
  hext H0 H1 /\ Forall (fun p => kind_ok H0 no_circ H1 (snd p)) ns1 /\ map fst ns1 = map fst ns ++ [u].
Proof.
  intros O X F. unfold h_copy_unit. destruct (nth_error (h_units H0) u) as [[a| |]|]; [| | |discriminate]; cbn [fst snd].
  - unfold h_dist_copy. destruct (nth_error (h_dists H) a) as [o|] eqn:Eo; [|discriminate]. cbn [alloc_dist].
    intros E. injection E as <- <-.
    assert (X1 : hext H (fst (alloc_dist H o))).
    { apply alloc_dist_hext. intros s v p ->. exact (proj1 (hx_ok _ _ X O) _ _ _ _ Eo). }
    split; [exact (hext_trans _ _ _ X X1)|]. split.
    + apply Forall_app. split.
      * eapply Forall_impl; [|exact F]. intros p. apply kind_ok_mono. exact X1.
      * constructor; [|constructor]. cbn. pose proof (fr_dlen _ _ _ _ (hx_frame _ _ X)) as L. split.
        -- cbn. rewrite app_length. cbn. lia.
        -- intros L'. lia.
    + rewrite map_app. reflexivity.
  - intros E. injection E as <- <-. split; [exact X|]. split; [apply Forall_app; split; [exact F|constructor; [exact I|constructor]]|].
    now rewrite map_app.
  - intros E. injection E as <- <-. split; [exact X|]. split; [apply Forall_app; split; [exact F|constructor; [exact I|constructor]]|].
    now rewrite map_app.
Qed.

Lemma h_copy_units_inv H0 l : heap_ok H0 -> forall H ns H1 ns1, hext H0 H ->
  Forall (fun p => kind_ok H0 no_circ H (snd p)) ns ->
  foldM (h_copy_unit H0) l (H, ns) = Some (H1, ns1) ->
  hext H0 H1 /\ Forall (fun p => kind_ok H0 no_circ H1 (snd p)) ns1 /\ map fst ns1 = map fst ns ++ l.
Proof.
  intros O. induction l as [|u l IH]; intros H ns H1 ns1 X F E; cbn [foldM] in E.
  - injection E as <- <-. rewrite app_nil_r. auto.
  - destruct (h_copy_unit H0 (H, ns) u) as [[H2 ns2]|] eqn:E2; [|discriminate].
    destruct (h_copy_unit_inv _ _ _ _ _ _ O X F E2) as (X2 & F2 & M2).
    destruct (IH _ _ _ _ X2 F2 E) as (X3 & F3 & M3). split; [exact X3|]. split; [exact F3|].
    rewrite M3, M2, <- app_assoc. reflexivity.
Qed.

Lemma unit_pos_pos l u : unit_pos l u = pos l u.
Proof. reflexivity. Qed.

Lemma circuit_copy_nodes {D} (nu : id -> id) (g : graph D) : (forall x y, nu x = nu y -> x = y) -> NoDup (node_ids g) ->
  g_nodes (circuit_copy nu g) = map (fun p => (nu (fst p), snd p)) (g_nodes g).
Proof.
  intros inj ND. unfold circuit_copy, empty_graph. rewrite add_nodes_fold.
  - rewrite fold_nodes; [|intros; apply add_edge_nodes]. rewrite fold_nodes; [reflexivity|intros; apply add_edge_nodes].
  - cbn [map app]. unfold node_ids in ND. clear - ND inj.
    induction (g_nodes g) as [|p l IH]; [constructor|]. cbn [map] in *. apply NoDup_cons_iff in ND. destruct ND as [N1 N2].
    constructor; [|auto]. intros H. apply N1. apply in_map_iff in H. destruct H as (q & E & H). apply inj in E.
    rewrite <- E. now apply in_map.
Qed.

Lemma shifted_pos_inj base l x y : base + pos l x = base + pos l y -> x = y.
Proof. intros E. apply (pos_inj l). lia. Qed.

(** The copy consists of new units that hold new distribution objects. *)
Lemma h_copy_step H c H' c' : circ_ok H c -> h_copy H c = Some (H', c') -> ostep H no_circ H' c'.
Proof.
  intros (O & I & N). unfold h_copy.
  destruct (foldM (h_copy_unit H) (c_units c) (H, [])) as [[H1 ns]|] eqn:EF; [|discriminate].
  destruct (h_copy_units_inv H (c_units c) O H [] H1 ns (hext_refl H)) as (X & F & M); [constructor|exact EF|].
  cbn [map app] in M. intros E.
  set (base := List.length (h_units H)) in *.
  set (nu := fun u => base + unit_pos (c_units c) u) in *.
  assert (inj : forall x y, nu x = nu y -> x = y) by (intros x y; apply (shifted_pos_inj base (c_units c))).
  assert (NDn : NoDup (node_ids (mkGraph ns (c_edges c)))) by (unfold node_ids; cbn; rewrite M; exact N).
  pose proof (circuit_copy_nodes nu (mkGraph ns (c_edges c)) inj NDn) as GN. cbn [g_nodes] in GN.
  set (g' := circuit_copy nu (mkGraph ns (c_edges c))) in *.
  assert (G : ginv H no_circ H1 (base + List.length (c_units c)) g').
  { assert (IDS : node_ids g' = map nu (c_units c)).
    { unfold node_ids. rewrite GN, map_map, <- M, map_map. reflexivity. }
    constructor.
    - rewrite IDS. clearbody nu. clear - N inj. induction (c_units c) as [|x l IH]; [constructor|]. apply NoDup_cons_iff in N.
      destruct N as [N1 N2]. cbn [map]. constructor; [|auto]. intros HX. apply N1. apply in_map_iff in HX.
      destruct HX as (y & E & HY). apply inj in E. now rewrite <- E.
    - intros u Hu. right. rewrite IDS in Hu. apply in_map_iff in Hu. destruct Hu as (x & <- & Hx).
      destruct (pos_in _ _ Hx) as [L _]. unfold nu. rewrite unit_pos_pos. unfold base. split; lia.
    - intros u k Hk. rewrite GN in Hk. apply in_map_iff in Hk. destruct Hk as ([x kx] & E2 & Hx). injection E2 as _ <-.
      rewrite Forall_forall in F. exact (F _ Hx). }
  destruct (commit_step' H no_circ O (no_circ_in H) H1 _ g' X G) as (S & Nd & _).
  injection E as <- <-. split; [exact S|exact Nd].
Qed.

(** ** Several simple sets *)

Lemma new_in H H1 c1 : step H no_circ H1 c1 -> 
  (forall u, In u (c_units c1) -> List.length (h_units H) <= u) /\ (forall a, holds H1 c1 a -> List.length (h_dists H) <= a).
Proof.
  intros S. split.
  - intros u Hu. destruct (Nat.lt_ge_cases u (List.length (h_units H))) as [L|L]; [|exact L].
    destruct (st_units _ _ _ _ S u Hu L).
  - intros a Ha. destruct (Nat.lt_ge_cases a (List.length (h_dists H))) as [L|L]; [|exact L].
    elim (no_circ_holds _ _ (st_dists _ _ _ _ S a Ha L)).
Qed.

Lemma in_heap_mono (U A : nat -> Prop) H H' c : frame U A H H' -> in_heap H c -> in_heap H' c.
Proof. intros F I u Hu. pose proof (I u Hu). pose proof (fr_ulen _ _ _ _ F). lia. Qed.

Definition fresh_in (H H' : heap) (c : circ) : Prop :=
  in_heap H' c /\ (forall u, In u (c_units c) -> List.length (h_units H) <= u) /\
  (forall a, holds H' c a -> List.length (h_dists H) <= a).

Lemma frame_none H H' : step H no_circ H' no_circ -> frame (fun _ => False) (fun _ => False) H H'.
Proof. intros S. eapply frame_weaken; [| |exact (st_frame _ _ _ _ S)]; [intros u _ []|intros a _ X; exact (no_circ_holds _ _ X)]. Qed.

Lemma frame_none' H H' c' : step H no_circ H' c' -> frame (fun _ => False) (fun _ => False) H H'.
Proof. intros S. eapply frame_weaken; [| |exact (st_frame _ _ _ _ S)]; [intros u _ []|intros a _ X; exact (no_circ_holds _ _ X)]. Qed.

Lemma h_conditionals_spec es : forall sts H c H' l, circ_ok H c -> h_conditionals es sts H c = Some (H', l) ->
  frame (fun _ => False) (fun _ => False) H H' /\ heap_ok H' /\ Forall (fun x => fresh_in H H' (fst (fst x))) l.
Proof.
  induction es as [|e es IH]; intros sts H c H' l K E; cbn [h_conditionals] in E.
  - injection E as <- <-. split; [apply frame_refl|]. split; [exact (proj1 K)|constructor].
  - destruct (h_copy H c) as [[H1 c1]|] eqn:E1; [|discriminate].
    pose proof (h_copy_step _ _ _ _ K E1) as S1.
    destruct (h_conditional_simple e (hd empty_store sts) H1 c1) as [[[[H2 c2] lp] st]|] eqn:E2; [|discriminate].
    pose proof (h_conditional_simple_step _ _ _ _ _ _ _ _ (ostep_ok _ _ _ _ S1) E2) as S2.
    pose proof (ostep_trans _ _ _ _ _ _ S1 S2) as S.
    pose proof (frame_none' _ _ _ (proj1 S)) as F12.
    destruct (h_conditionals es (tl sts) H2 c) as [[H3 l3]|] eqn:E3; [|discriminate].
    assert (K2 : circ_ok H2 c).
    { split; [exact (st_ok _ _ _ _ (proj1 S))|]. split; [|exact (proj2 (proj2 K))].
      exact (in_heap_mono _ _ _ _ _ F12 (proj1 (proj2 K))). }
    destruct (IH _ _ _ _ _ K2 E3) as (F23 & O3 & L3).
    assert (F13 : frame (fun _ => False) (fun _ => False) H H3) by (eapply frame_trans; [| |exact F12|exact F23]; auto).
    assert (E' : H' = H3) by (injection E; auto). subst H'.
    split; [exact F13|]. split; [exact O3|].
    assert (L3' : Forall (fun x => fresh_in H H3 (fst (fst x))) l3).
    { eapply Forall_impl; [|exact L3]. intros x (A & B & C). split; [exact A|]. split.
      - intros u Hu. specialize (B u Hu). pose proof (fr_ulen _ _ _ _ F12). lia.
      - intros a Ha. specialize (C a Ha). pose proof (fr_dlen _ _ _ _ F12). lia. }
    assert (N2 : fresh_in H H3 c2).
    { destruct (new_in _ _ _ (proj1 S)) as [A B]. pose proof (st_in _ _ _ _ (proj1 S)) as I2. split; [|split].
      - exact (in_heap_mono _ _ _ _ _ F23 I2).
      - exact A.
      - intros a (u & Hu & Eu). apply B. exists u. split; [exact Hu|].
        rewrite <- (fr_units _ _ _ _ F23 u (I2 u Hu) (fun x => x)). exact Eu. }
    assert (E'' : l = match lp with Some v => if gt_ninf v then (c2, v, st) :: l3 else l3 | None => l3 end) by (injection E; auto).
    subst l. destruct lp as [v|]; [|exact L3']. destruct (gt_ninf v); [|exact L3']. constructor; [exact N2|exact L3'].
Qed.

Lemma add_circuit_nodes {D} (g other : graph D) : g_nodes (add_circuit g other)
  = g_nodes (fold_left (fun acc p => add_node acc (fst p) (snd p)) (g_nodes other) g).
Proof.
  unfold add_circuit. rewrite fold_nodes; [|intros; apply add_edge_nodes].
  rewrite fold_nodes; [reflexivity|intros; apply add_edge_nodes].
Qed.

Lemma add_nodes_prop {D} (P : id * ukind D -> Prop) ns : forall g, Forall P ns -> Forall P (g_nodes g) -> NoDup (node_ids g) ->
  Forall P (g_nodes (fold_left (fun acc p => add_node acc (fst p) (snd p)) ns g)) /\
  NoDup (node_ids (fold_left (fun acc p => add_node acc (fst p) (snd p)) ns g)).
Proof.
  induction ns as [|[u k] ns IH]; intros g F G N; cbn [fold_left fst snd]; [auto|].
  inversion F as [|x y F1 F2]; subst. apply IH; [exact F2| |].
  - unfold add_node. destruct (has_node g u); [exact G|]. cbn. apply Forall_app. auto.
  - unfold add_node. destruct (has_node g u) eqn:E; [exact N|]. unfold node_ids in *. cbn. rewrite map_app. cbn.
    apply NoDup_app_intro; [exact N|constructor; [intros []|constructor]|]. intros x Hx [<-|[]].
    unfold has_node in E. assert (T : existsb (Nat.eqb u) (node_ids g) = true).
    { apply existsb_exists. exists u. split; [exact Hx|apply Nat.eqb_refl]. } congruence.
Qed.

Lemma mount_root_prop {D} (P : id * ukind D -> Prop) s acc other lp g r : mount_root s acc other lp = Some (g, r) ->
  Forall P (g_nodes other) -> Forall P (g_nodes acc) -> NoDup (node_ids acc) -> Forall P (g_nodes g) /\ NoDup (node_ids g).
Proof.
  unfold mount_root. destruct (root other) as [r0|]; [|discriminate].
  destruct (remove_unreachable_nodes other r0) as [sub|] eqn:E; [|discriminate]. intros X F G N. injection X as <- _.
  unfold node_ids. rewrite add_edge_nodes, add_circuit_nodes.
  apply add_nodes_prop; [|exact G|exact N].
  apply Forall_forall. intros x Hx. rewrite Forall_forall in F. apply F.
  exact (nsub_in _ _ _ (remove_unreachable_nsub _ _ _ E) Hx).
Qed.

Lemma h_conditional_in_place_step es sts H c H' c' lp : circ_ok H c ->
  h_conditional_in_place es sts H c = Some (H', c', lp) -> ostep H c H' c'.
Proof.
  intros K. unfold h_conditional_in_place.
  assert (EMPTY : forall H1, frame (fun _ => False) (fun _ => False) H H1 -> heap_ok H1 -> ostep H c H1 (mkCirc [] [])).
  { intros H1 F O1. split; [|constructor]. apply step_weaken. constructor; [|exact O1|apply no_circ_in|intros u []|].
    - eapply frame_weaken; [| |exact F]; [intros u _ []|intros a _ []].
    - intros a Ha. elim (no_circ_holds _ _ Ha). }
  destruct es as [|e [|e2 es]].
  - intros E. injection E as <- <- _. apply EMPTY; [apply frame_refl|exact (proj1 K)].
  - destruct (h_conditional_simple e (hd empty_store sts) H c) as [[[[H1 c1] lp1] st]|] eqn:E1; [|discriminate].
    intros E. injection E as <- <- _. exact (h_conditional_simple_step _ _ _ _ _ _ _ _ K E1).
  - destruct (h_conditionals (e :: e2 :: es) sts H c) as [[H1 l]|] eqn:E1; [|discriminate].
    destruct (h_conditionals_spec _ _ _ _ _ _ K E1) as (F & O1 & L). clear E1.
    destruct l as [|x l].
    + intros E. injection E as <- <- _. apply EMPTY; [exact F|exact O1].
    + remember (x :: l) as cs eqn:Ecs. clear Ecs x l. set (s := List.length (h_units H1)).
      destruct (h_mount_all s H1 cs) as [[g vs]|] eqn:EM; [|discriminate].
      destruct (sum_log_forward vs) as [v|]; [|discriminate].
      destruct (sum_normalize g s) as [g'|] eqn:EN; [|discriminate]. intros E.
      set (cu := mkCirc (flat_map (fun y => c_units (fst (fst y))) cs) []).
      assert (Icu : in_heap H1 cu).
      { intros u Hu. unfold cu in Hu; cbn [c_units] in Hu. apply in_flat_map in Hu. destruct Hu as (y & Hy & Hu). rewrite Forall_forall in L.
        exact (proj1 (L y Hy) u Hu). }
      assert (S1 : step H no_circ H1 cu).
      { constructor; [|exact O1|exact Icu| |].
        - eapply frame_weaken; [| |exact F]; [intros u _ []|intros a _ []].
        - intros u Hu Lu. unfold cu in Hu; cbn [c_units] in Hu. apply in_flat_map in Hu. destruct Hu as (y & Hy & Hu). rewrite Forall_forall in L.
          pose proof (proj1 (proj2 (L y Hy)) u Hu). lia.
        - intros a (u & Hu & Eu) La. unfold cu in Hu; cbn [c_units] in Hu. apply in_flat_map in Hu. destruct Hu as (y & Hy & Hu).
          rewrite Forall_forall in L. pose proof (proj2 (proj2 (L y Hy)) a (ex_intro _ u (conj Hu Eu))). lia. }
      assert (GP : Forall (fun p => (In (fst p) (c_units cu) \/ (List.length (h_units H1) <= fst p /\ fst p < S s)) /\
                     kind_ok H1 cu H1 (snd p)) (g_nodes g) /\ NoDup (node_ids g)).
      { unfold h_mount_all in EM.
        assert (GEN : forall m z0 z1, incl m cs -> 
           foldM (h_mount_one s H1) m z0 = Some z1 ->
           (Forall (fun p => (In (fst p) (c_units cu) \/ (List.length (h_units H1) <= fst p /\ fst p < S s)) /\
                     kind_ok H1 cu H1 (snd p)) (g_nodes (fst z0)) /\ NoDup (node_ids (fst z0))) ->
           Forall (fun p => (In (fst p) (c_units cu) \/ (List.length (h_units H1) <= fst p /\ fst p < S s)) /\
                     kind_ok H1 cu H1 (snd p)) (g_nodes (fst z1)) /\ NoDup (node_ids (fst z1))).
        { induction m as [|y m IHm]; intros z0 z1 IN EZ Z; cbn [foldM] in EZ; [injection EZ as <-; exact Z|].
          unfold h_mount_one at 1 in EZ.
          destruct (mount_root s (fst z0) (ref_graph H1 (fst (fst y))) (snd (fst y))) as [[gy ry]|] eqn:EY; [|discriminate EZ].
          destruct (snd y ry) as [vy|]; [|discriminate EZ]. refine (IHm _ _ _ EZ _); [intros q Hq; apply IN; now right|].
          cbn [fst]. destruct Z as [Z1 Z2]. refine (mount_root_prop _ _ _ _ _ _ _ EY _ Z1 Z2).
          apply Forall_forall. intros p Hp. cbn in Hp. apply in_map_iff in Hp. destruct Hp as (u & <- & Hu). cbn [fst snd].
          assert (Hcu : In u (c_units cu)).
          { unfold cu; cbn [c_units]. apply in_flat_map. exists y. split; [apply IN; now left|exact Hu]. }
          split; [left; exact Hcu|].
          destruct (nth_error (h_units H1) u) as [k|] eqn:En; [|apply nth_error_None in En; specialize (Icu u Hcu); lia].
          rewrite (nth_error_nth _ _ _ _ En). destruct k as [a| |]; cbn; auto. split; [exact (proj2 O1 u a En)|].
          intros _. exists u. auto. }
        refine (GEN cs _ (g, vs) (incl_refl _) EM _). cbn. split.
        - constructor; [|constructor]. cbn. split; [right; unfold s; lia|exact I].
        - constructor; [intros []|constructor]. }
      destruct GP as [GP GN].
      assert (G : ginv H1 cu H1 (S s) g').
      { apply (ginv_nodes _ _ _ _ g); [exact (sum_normalize_nodes _ _ _ EN)|]. constructor; [exact GN| |].
        - intros u Hu. unfold node_ids in Hu. apply in_map_iff in Hu. destruct Hu as (p & <- & Hp). rewrite Forall_forall in GP.
          exact (proj1 (GP p Hp)).
        - intros u k Hk. rewrite Forall_forall in GP. exact (proj2 (GP _ Hk)). }
      destruct (commit_step' H1 cu O1 Icu H1 (S s) g' (hext_refl H1) G) as (S2 & Nd & _).
      injection E as <- <- _. split; [|exact Nd]. exact (step_trans _ _ _ _ _ _ (step_weaken _ _ _ _ S1) S2).
Qed.

(** ** Translating and scaling *)

Lemma h_dist_move_inv H0 c f H a H1 : circ_ok H0 c -> holds H0 c a ->
  (frame (fun _ => False) (holds H0 c) H0 H /\ heap_ok H /\ h_units H = h_units H0) ->
  h_dist_move f H a = Some H1 ->
  frame (fun _ => False) (holds H0 c) H0 H1 /\ heap_ok H1 /\ h_units H1 = h_units H0.
Proof.
  intros K Ha (F & O & U) E. unfold h_dist_move in E.
  assert (W : forall H2 o, frame (fun _ => False) (holds H0 c) H0 H2 -> heap_ok H2 -> h_units H2 = h_units H0 ->
    (forall s v p, o = ODisc s v p -> p < List.length (h_dicts H2)) ->
    frame (fun _ => False) (holds H0 c) H0 (write_dist H2 a o) /\ heap_ok (write_dist H2 a o) /\
    h_units (write_dist H2 a o) = h_units H0).
  { intros H2 o F2 O2 U2 Ho. split; [|split; [|exact U2]].
    - constructor; cbn.
      + exact (fr_units _ _ _ _ F2).
      + intros b Lb Nb. rewrite set_nth_other; [exact (fr_dists _ _ _ _ F2 b Lb Nb)|]. intros ->. auto.
      + exact (fr_dicts _ _ _ _ F2).
      + exact (fr_ulen _ _ _ _ F2).
      + rewrite set_nth_length. exact (fr_dlen _ _ _ _ F2).
      + exact (fr_plen _ _ _ _ F2).
    - destruct O2 as [A B]. split; cbn.
      + intros s v p b Eb. destruct (Nat.eq_dec a b) as [->|N].
        * assert (Lb : b < List.length (h_dists H2)).
          { rewrite <- (set_nth_length (h_dists H2) b o). apply nth_error_Some. congruence. }
          rewrite set_nth_same in Eb by exact Lb. injection Eb as Eb. exact (Ho s v p Eb).
        * rewrite set_nth_other in Eb by exact N. eauto.
      + intros u b Eb. rewrite set_nth_length. eauto. }
  destruct (nth_error (h_dists H) a) as [[d|s v p]|] eqn:Ea; [| |discriminate].
  - destruct (f d) as [d'|]; [|discriminate]. injection E as <-. apply W; auto. discriminate.
  - destruct (nth_error (h_dicts H) p) as [q|]; [|discriminate].
    destruct (f _) as [d'|]; [|discriminate].
    assert (SAME : Some H = Some H1 -> frame (fun _ => False) (holds H0 c) H0 H1 /\ heap_ok H1 /\ h_units H1 = h_units H0).
    { intros X. injection X as <-. auto. }
    destruct d' as [v' i|v' x0 c0|v' m s0|v' i m s0|v' q'|v' q']; try (apply SAME; exact E). clear SAME.
    cbn [alloc_dict] in E. injection E as <-.
    pose proof (alloc_dict_hext H q') as [FX OX UX]. cbn [alloc_dict fst] in *.
    apply W.
    + eapply frame_trans; [| |exact F|exact FX]; auto; intros x _ [].
    + exact (OX O).
    + exact U.
    + intros s1 v1 p1 X. injection X as <- <- <-. cbn. rewrite app_length. cbn. lia.
Qed.

Lemma each_leaf_step f H c ls : circ_ok H c ->
  ostep H c (h_each_leaf (h_dist_move f) H (ref_graph H c) ls) c.
Proof.
  intros K. pose proof K as (O & I & N).
  assert (G : forall ls H1, (frame (fun _ => False) (holds H c) H H1 /\ heap_ok H1 /\ h_units H1 = h_units H) ->
    frame (fun _ => False) (holds H c) H (h_each_leaf (h_dist_move f) H1 (ref_graph H c) ls) /\
    heap_ok (h_each_leaf (h_dist_move f) H1 (ref_graph H c) ls) /\
    h_units (h_each_leaf (h_dist_move f) H1 (ref_graph H c) ls) = h_units H).
  { clear ls. induction ls as [|u ls IH]; intros H1 P; cbn [h_each_leaf]; [exact P|].
    destruct (node_kind (ref_graph H c) u) as [[a| |]|] eqn:Ku; try exact P.
    destruct (h_dist_move f H1 a) as [H2|] eqn:E2; [|exact P]. apply IH.
    refine (h_dist_move_inv H c f H1 a H2 K _ P E2).
    apply node_kind_In in Ku. rename Ku into Fu. cbn in Fu. apply in_map_iff in Fu.
    destruct Fu as (y & Ey & Hy). injection Ey as <- Ey. exists y. split; [exact Hy|].
    destruct (nth_error (h_units H) y) as [k|] eqn:En; [|apply nth_error_None in En; specialize (I y Hy); lia].
    rewrite (nth_error_nth _ _ _ _ En) in Ey. now rewrite Ey. }
  destruct (G ls H) as (F & O1 & U); [split; [apply frame_refl|split; [exact O|reflexivity]]|].
  split; [|exact N]. constructor.
  - eapply frame_weaken; [| |exact F]; [intros u _ []|auto].
  - exact O1.
  - intros u Hu. rewrite U. exact (I u Hu).
  - auto.
  - intros a (u & Hu & Eu) _. exists u. rewrite U in Eu. auto.
Qed.

Lemma h_translate_step t H c H' c' : circ_ok H c -> h_translate t H c = Some (H', c') -> ostep H c H' c'.
Proof.
  intros K. unfold h_translate. destruct (circuit_leaves (ref_graph H c)) as [ls|]; [|discriminate].
  intros E. injection E as <- <-. apply each_leaf_step. exact K.
Qed.

Lemma h_scale_step t H c H' c' : circ_ok H c -> h_scale t H c = Some (H', c') -> ostep H c H' c'.
Proof.
  intros K. unfold h_scale. destruct (circuit_leaves (ref_graph H c)) as [ls|]; [|discriminate].
  intros E. injection E as <- <-. apply each_leaf_step. exact K.
Qed.

(** ** Histories *)

Lemma run_op_step H c o H' c' : circ_ok H c -> run_op (H, c) o = Some (H', c') -> ostep H c H' c'.
Proof.
  intros K E. destruct o as [es sts|vs| | |t|s]; cbn [run_op fst snd] in E.
  - destruct (h_conditional_in_place es sts H c) as [[[H1 c1] lp]|] eqn:E1; [|discriminate]. injection E as <- <-.
    exact (h_conditional_in_place_step _ _ _ _ _ _ _ K E1).
  - destruct (h_marginal_in_place vs H c) as [[[H1 c1] b]|] eqn:E1; [|discriminate]. injection E as <- <-.
    exact (h_marginal_in_place_step _ _ _ _ _ _ K E1).
  - exact (h_simplify_step _ _ _ _ K E).
  - exact (h_normalize_step _ _ _ _ K E).
  - exact (h_translate_step _ _ _ _ _ K E).
  - exact (h_scale_step _ _ _ _ _ K E).
Qed.

Lemma ostep_refl H c : circ_ok H c -> ostep H c H c.
Proof. intros (O & I & N). split; [|exact N]. constructor; auto using frame_refl. Qed.

Lemma run_ops_step os : forall H c H' c', circ_ok H c -> run_ops os (H, c) = Some (H', c') -> ostep H c H' c'.
Proof.
  induction os as [|o os IH]; intros H c H' c' K E; cbn [run_ops foldM] in E.
  - unfold run_ops in E. cbn in E. injection E as <- <-. now apply ostep_refl.
  - unfold run_ops in E. cbn [foldM] in E. destruct (run_op (H, c) o) as [[H1 c1]|] eqn:E1; [|discriminate].
    pose proof (run_op_step _ _ _ _ _ K E1) as S1. refine (ostep_trans _ _ _ _ _ _ S1 (IH _ _ _ _ (ostep_ok _ _ _ _ S1) E)).
Qed.

(** ** The view of a copy *)

Definition kview (H : heap) (k : ukind addr) : option (ukind dist) :=
  match k with
  | ULeaf a => match read_dist H a with None => None | Some d => Some (ULeaf d) end
  | USum => Some USum
  | UProd => Some UProd
  end.

Lemma unit_view_kview H u k : nth_error (h_units H) u = Some k ->
  unit_view H u = match kview H k with None => None | Some k' => Some (u, k') end.
Proof. intros E. unfold unit_view. rewrite E. destruct k as [a| |]; cbn; [destruct (read_dist H a)| |]; reflexivity. Qed.

Lemma kview_hext H H' k : heap_ok H -> hext H H' -> kview H k <> None -> kview H' k = kview H k.
Proof.
  intros O X N. destruct k as [a| |]; cbn in *; auto.
  assert (L : a < List.length (h_dists H)).
  { apply nth_error_Some. intros E. apply N. unfold read_dist. now rewrite E. }
  now rewrite (read_dist_frame _ _ _ _ a O (hx_frame _ _ X) L (fun x => x)).
Qed.

Lemma read_dist_total H a : heap_ok H -> a < List.length (h_dists H) -> exists d, read_dist H a = Some d.
Proof.
  intros [O _] L. unfold read_dist. destruct (nth_error (h_dists H) a) as [[d|s v p]|] eqn:E; [eauto| |apply nth_error_None in E; lia].
  specialize (O _ _ _ _ E). destruct (nth_error (h_dicts H) p) as [q|] eqn:Ep; [eauto|apply nth_error_None in Ep; lia].
Qed.

Lemma kview_total H u k : heap_ok H -> nth_error (h_units H) u = Some k -> exists k', kview H k = Some k'.
Proof.
  intros O E. destruct k as [a| |]; cbn; eauto.
  destruct (read_dist_total H a O (proj2 O u a E)) as [d ->]. eauto.
Qed.

Lemma mapM_total {A B} (f : A -> option B) l : (forall a, In a l -> exists b, f a = Some b) -> exists bs, mapM f l = Some bs.
Proof.
  induction l as [|a l IH]; intros T; [exists []; reflexivity|].
  destruct (T a (or_introl eq_refl)) as [b Eb]. destruct IH as [bs E]; [intros x Hx; apply T; now right|].
  exists (b :: bs). unfold mapM in *. now rewrite Eb, E.
Qed.

(** Every circuit has a view. *)
Lemma view_total H c : circ_ok H c -> exists g, view H c = Some g.
Proof.
  intros (O & I & _). unfold view. destruct (mapM_total (unit_view H) (c_units c)) as [ns ->]; [|eauto].
  intros u Hu. destruct (nth_error (h_units H) u) as [k|] eqn:E; [|apply nth_error_None in E; specialize (I u Hu); lia].
  rewrite (unit_view_kview _ _ _ E). destruct (kview_total H u k O E) as [k' ->]. eauto.
Qed.

Definition copied (H0 H1 : heap) (u : id) (p : id * ukind addr) : Prop :=
  fst p = u /\ exists k k', nth_error (h_units H0) u = Some k /\ kview H0 k = Some k' /\ kview H1 (snd p) = Some k'.

Lemma copy_unit_view H0 H ns u us : heap_ok H0 -> hext H0 H -> u < List.length (h_units H0) ->
  Forall2 (copied H0 H) us ns ->
  exists H1 ns1, h_copy_unit H0 (H, ns) u = Some (H1, ns1) /\ hext H H1 /\ Forall2 (copied H0 H1) (us ++ [u]) ns1.
Proof.
  intros O X L F. unfold h_copy_unit.
  destruct (nth_error (h_units H0) u) as [k|] eqn:Eu; [|apply nth_error_None in Eu; lia].
  destruct (kview_total H0 u k O Eu) as [k' Ek].
  destruct k as [a| |]; cbn [fst snd].
  - unfold h_dist_copy. pose proof (proj2 O u a Eu) as La.
    destruct (nth_error (h_dists H0) a) as [o|] eqn:Eo; [|apply nth_error_None in Eo; lia].
    rewrite (fr_dists _ _ _ _ (hx_frame _ _ X) a La (fun x => x)), Eo. cbn [alloc_dist].
    assert (Oh : heap_ok H) by exact (hx_ok _ _ X O).
    assert (Eo' : nth_error (h_dists H) a = Some o) by now rewrite (fr_dists _ _ _ _ (hx_frame _ _ X) a La (fun x => x)).
    assert (X1 : hext H (fst (alloc_dist H o))).
    { apply alloc_dist_hext. intros s v p ->. exact (proj1 Oh _ _ _ _ Eo'). }
    cbn [alloc_dist fst] in X1. set (H2 := mkHeap _ _ _) in *.
    exists H2. eexists. split; [reflexivity|]. split; [exact X1|].
    apply Forall2_app.
    + clear - F X1 Oh. induction F as [|x p us ns (E & k & k' & A & B & C) _ IH]; constructor; [|exact IH].
      split; [exact E|]. exists k, k'. split; [exact A|]. split; [exact B|].
      rewrite (kview_hext H H2 (snd p) Oh X1); [exact C|congruence].
    + constructor; [|constructor]. split; [reflexivity|]. exists (ULeaf a), k'. split; [exact Eu|]. split; [exact Ek|].
      rewrite <- Ek. rewrite <- (kview_hext H0 H (ULeaf a) O X) by congruence. cbn [kview snd].
      assert (Enew : read_dist H2 (List.length (h_dists H)) = read_dist H a).
      { unfold read_dist at 1. unfold H2 at 1. cbn [h_dists]. rewrite nth_error_app2 by lia. rewrite Nat.sub_diag. cbn [nth_error].
        unfold read_dist. rewrite Eo'. reflexivity. }
      now rewrite Enew.
  - exists H. eexists. split; [reflexivity|]. split; [apply hext_refl|]. apply Forall2_app; [exact F|]. constructor; [|constructor].
    split; [reflexivity|]. exists USum, USum. auto.
  - exists H. eexists. split; [reflexivity|]. split; [apply hext_refl|]. apply Forall2_app; [exact F|]. constructor; [|constructor].
    split; [reflexivity|]. exists UProd, UProd. auto.
Qed.

Lemma copy_units_view H0 l : heap_ok H0 -> forall H ns us, hext H0 H -> (forall u, In u l -> u < List.length (h_units H0)) ->
  Forall2 (copied H0 H) us ns ->
  exists H1 ns1, foldM (h_copy_unit H0) l (H, ns) = Some (H1, ns1) /\ hext H0 H1 /\ Forall2 (copied H0 H1) (us ++ l) ns1.
Proof.
  intros O. induction l as [|u l IH]; intros H ns us X L F.
  - exists H, ns. rewrite app_nil_r. auto.
  - destruct (copy_unit_view H0 H ns u us O X (L u (or_introl eq_refl)) F) as (H1 & ns1 & E1 & X1 & F1).
    destruct (IH H1 ns1 (us ++ [u]) (hext_trans _ _ _ X X1)) as (H2 & ns2 & E2 & X2 & F2); [intros x Hx; apply L; now right|exact F1|].
    exists H2, ns2. cbn [foldM]. rewrite E1. split; [exact E2|]. split; [exact X2|]. now rewrite <- app_assoc in F2.
Qed.

(** The edges of a copy depend on the identities and the edges only. *)
Lemma fold_add_edges {D D'} (nu : id -> id) (w : edge -> option num) l : forall (g : graph D) (g' : graph D'), g_edges g = g_edges g' ->
  g_edges (fold_left (fun acc e => add_edge acc (nu (e_src e)) (nu (e_dst e)) (w e)) l g) =
  g_edges (fold_left (fun acc e => add_edge acc (nu (e_src e)) (nu (e_dst e)) (w e)) l g').
Proof.
  induction l as [|e l IH]; intros g g' E; cbn [fold_left]; [exact E|]. apply IH. unfold add_edge. rewrite E.
  destruct (existsb _ _); reflexivity.
Qed.

Lemma fold_add_nodes_edges {D} (nu : id -> id) ns : forall (g : graph D),
  g_edges (fold_left (fun acc p => add_node acc (nu (fst p)) (snd p)) ns g) = g_edges g.
Proof.
  induction ns as [|p ns IH]; intros g; cbn [fold_left]; [reflexivity|]. rewrite IH. unfold add_node.
  destruct (has_node g _); reflexivity.
Qed.

Lemma circuit_copy_edges {D D'} (nu : id -> id) (g : graph D) (g' : graph D') :
  node_ids g = node_ids g' -> g_edges g = g_edges g' -> g_edges (circuit_copy nu g) = g_edges (circuit_copy nu g').
Proof.
  intros N E.
  assert (I : edges_iter g = edges_iter g').
  { unfold edges_iter. rewrite N. apply flat_map_ext. intros u. unfold out_edges. now rewrite E. }
  unfold circuit_copy, log_weighted_edges, unweighted_edges. rewrite I.
  apply fold_add_edges. apply (fold_add_edges nu (fun _ => None)). now rewrite !fold_add_nodes_edges.
Qed.

(** The view of the copy is the copy of the view, and copying never raises. *)
Definition copy_name (H : heap) (c : circ) (u : id) : id := List.length (h_units H) + pos (c_units c) u.

Lemma copy_name_inj H c x y : copy_name H c x = copy_name H c y -> x = y.
Proof. apply shifted_pos_inj. Qed.

Lemma h_copy_view H c g : circ_ok H c -> view H c = Some g ->
  exists H' c', h_copy H c = Some (H', c') /\ view H' c' = Some (circuit_copy (copy_name H c) g).
Proof.
  intros K V. pose proof K as (O & I & N).
  destruct (copy_units_view H (c_units c) O H [] [] (hext_refl H) I (Forall2_nil _)) as (H1 & ns & EF & X & F).
  cbn [app] in F.
  assert (EC : exists H' c', h_copy H c = Some (H', c')) by (unfold h_copy; rewrite EF; do 2 eexists; reflexivity).
  destruct EC as (H' & c' & EC). exists H', c'. split; [exact EC|].
  pose proof EC as EC'. unfold h_copy in EC'. rewrite EF in EC'. cbv zeta in EC'.
  change (fun u => List.length (h_units H) + unit_pos (c_units c) u) with (copy_name H c) in EC'.
  set (nu := copy_name H c) in *.
  assert (inj : forall x y, nu x = nu y -> x = y) by (intros x y; apply copy_name_inj).
  assert (M : map fst ns = c_units c).
  { clear - F. induction F as [|x p us ns (E & _) _ IH]; [reflexivity|]. cbn [map]. now rewrite IH, E. }
  assert (NDn : NoDup (node_ids (mkGraph ns (c_edges c)))) by (unfold node_ids; cbn; rewrite M; exact N).
  pose proof (circuit_copy_nodes nu (mkGraph ns (c_edges c)) inj NDn) as GN. cbn [g_nodes] in GN.
  set (g' := circuit_copy nu (mkGraph ns (c_edges c))) in *.
  unfold view in V. destruct (mapM (unit_view H) (c_units c)) as [ns0|] eqn:EV; [|discriminate]. injection V as <-.
  assert (F0 : Forall2 (fun u p => unit_view H u = Some p) (c_units c) ns0).
  { clear - EV. revert ns0 EV. induction (c_units c) as [|u l IH]; intros ns0 EV; unfold mapM in *; cbn in EV.
    - injection EV as <-. constructor.
    - destruct (unit_view H u) as [p|] eqn:Eu; [|discriminate].
      match type of EV with context [match ?x with _ => _ end] => destruct x as [l0|] eqn:El; [|discriminate] end.
      injection EV as <-. constructor; [exact Eu|]. now apply IH. }
  assert (M0 : map fst ns0 = c_units c).
  { clear - F0. induction F0 as [|x p us ns E _ IH]; [reflexivity|]. cbn [map]. rewrite IH. f_equal.
    unfold unit_view in E. destruct (nth_error (h_units H) x) as [[a| |]|]; [| | |discriminate]; try (injection E as <-; reflexivity).
    destruct (read_dist H a); [|discriminate]. now injection E as <-. }
  assert (IDS : node_ids g' = map nu (c_units c)).
  { unfold node_ids. rewrite GN, map_map, <- M, map_map. reflexivity. }
  (* the heap after writing back *)
  assert (G : ginv H no_circ H1 (List.length (h_units H) + List.length (c_units c)) g').
  { destruct (h_copy_units_inv H (c_units c) O H [] H1 ns (hext_refl H) (Forall_nil _) EF) as (_ & FK & _).
    constructor.
    - rewrite IDS. clearbody nu. clear - N inj. induction (c_units c) as [|x l IH]; [constructor|]. apply NoDup_cons_iff in N.
      destruct N as [N1 N2]. cbn [map]. constructor; [|auto]. intros HX. apply N1. apply in_map_iff in HX.
      destruct HX as (y & E & HY). apply inj in E. now rewrite <- E.
    - intros u Hu. right. rewrite IDS in Hu. apply in_map_iff in Hu. destruct Hu as (x & <- & Hx).
      destruct (pos_in _ _ Hx) as [L _]. unfold nu, copy_name. split; lia.
    - intros u k Hk. rewrite GN in Hk. apply in_map_iff in Hk. destruct Hk as ([x kx] & E2 & Hx). injection E2 as _ <-.
      rewrite Forall_forall in FK. exact (FK _ Hx). }
  destruct (commit_step' H no_circ O (no_circ_in H) H1 _ g' X G) as (_ & _ & W & D1 & D2).
  assert (KV : forall k, kview H' k = kview H1 k).
  { intros k. assert (HD : h_dists H' = h_dists H1) by (injection EC' as <- _; exact D1).
    assert (HP : h_dicts H' = h_dicts H1) by (injection EC' as <- _; exact D2).
    destruct k as [a| |]; cbn; auto. unfold read_dist. now rewrite HD, HP. }
  assert (EH : H' = fst (commit H1 (List.length (h_units H) + List.length (c_units c)) g')) by (injection EC' as <- _; reflexivity).
  assert (Ec : c' = circ_of g') by (injection EC' as _ <-; reflexivity).
  rewrite <- EH in W. subst c'. unfold view, circ_of. cbn [c_units c_edges].
  assert (EM : mapM (unit_view H') (node_ids g') = Some (map (fun p => (nu (fst p), snd p)) ns0)).
  { rewrite IDS, mapM_map. clearbody g'. clear - F F0 W KV GN.
    assert (SUB : forall p, In p ns -> In (nu (fst p), snd p) (g_nodes g')).
    { intros p Hp. rewrite GN. exact (in_map (fun p => (nu (fst p), snd p)) ns p Hp). }
    clear GN. revert ns0 F0. induction F as [|u p us ns (E & k & k' & A & B & C) F IH]; intros ns0 F0; inversion F0; subst; [reflexivity|].
    unfold mapM in *. cbn [map].
    assert (HW : nth_error (h_units H') (nu (fst p)) = Some (snd p)) by (apply W; apply SUB; now left).
    rewrite (unit_view_kview _ _ _ HW), KV, C.
    match goal with H : unit_view _ _ = Some _ |- _ => rewrite (unit_view_kview _ _ _ A), B in H; injection H as <- end.
    erewrite IH; [reflexivity|intros q Hq; apply SUB; now right|assumption]. }
  rewrite EM. f_equal.
  assert (ND0 : NoDup (node_ids (mkGraph ns0 (c_edges c)))) by (unfold node_ids; cbn; rewrite M0; exact N).
  pose proof (circuit_copy_nodes nu (mkGraph ns0 (c_edges c)) inj ND0) as GN0. cbn [g_nodes] in GN0.
  assert (GE : g_edges g' = g_edges (circuit_copy nu (mkGraph ns0 (c_edges c)))).
  { apply circuit_copy_edges; [|reflexivity]. unfold node_ids. cbn. now rewrite M, M0. }
  destruct (circuit_copy nu (mkGraph ns0 (c_edges c))) as [n0 e0]. cbn [g_nodes g_edges] in GN0, GE |- *.
  rewrite GN0. f_equal. exact GE.
Qed.
