(** * InteractionFacts: what the graph operations do to the out-edges of every unit; mounting *)
From Coq Require Import List Arith Bool Lia ZArith Reals Lra.
From Verif Require Import Num Graph GraphFacts Spec SpecFacts Circuit EvalFacts VarFacts Interval Dist Simplify SimplifyFacts
  TreeLocal NormalizeFacts Conditional Copy CopyFacts Heap Interaction.
Import ListNotations.
Local Set Bullet Behavior "Strict Subproofs".
Local Open Scope nat_scope.

Section Ops.
Context {D : Type}.
Implicit Types g h : graph D.

(** ** The out-edges of one unit after adding an edge *)

Definition addl (u v : id) (lw : option num) (L : list edge) : list edge :=
  if existsb (fun e => e_dst e =? v) L
  then map (fun e => if e_dst e =? v then mkEdge u v (match lw with Some w => Some w | None => e_lw e end) else e) L
  else L ++ [mkEdge u v lw].

Lemma add_edge_ids g u v lw : node_ids (add_edge g u v lw) = node_ids g.
Proof. unfold add_edge. destruct existsb; reflexivity. Qed.

Lemma add_edge_kind g u v lw x : node_kind (add_edge g u v lw) x = node_kind g x.
Proof. unfold add_edge, node_kind. destruct existsb; reflexivity. Qed.

Lemma existsb_out g u v : existsb (is_edge u v) (g_edges g) = existsb (fun e => e_dst e =? v) (out_edges g u).
Proof.
  unfold out_edges, is_edge. induction (g_edges g) as [|e l IH]; [reflexivity|]. cbn [existsb filter].
  destruct (e_src e =? u); cbn [existsb andb]; now rewrite IH.
Qed.

Lemma add_edge_out g u v lw x : out_edges (add_edge g u v lw) x = if x =? u then addl u v lw (out_edges g u) else out_edges g x.
Proof.
  unfold add_edge, addl. rewrite <- existsb_out. destruct (existsb (is_edge u v) (g_edges g)); unfold out_edges; cbn [g_edges].
  - unfold is_edge. destruct (Nat.eqb_spec x u) as [->|N]; induction (g_edges g) as [|e l IH]; try reflexivity; cbn [map filter].
    + destruct (e_src e =? u) eqn:E; cbn [andb].
      * destruct (e_dst e =? v) eqn:E2; cbn [e_src filter map]; rewrite ?Nat.eqb_refl, ?E; cbn [map]; rewrite E2; now rewrite IH.
      * rewrite E. exact IH.
    + destruct (e_src e =? u) eqn:E; cbn [andb].
      * destruct (e_dst e =? v) eqn:E2; cbn [e_src]; [|now rewrite IH]. apply Nat.eqb_eq in E.
        destruct (Nat.eqb_spec u x); [congruence|]. destruct (Nat.eqb_spec (e_src e) x); [congruence|exact IH].
      * now rewrite IH.
  - rewrite !filter_app. cbn [filter e_src]. destruct (Nat.eqb_spec x u) as [->|N].
    + now rewrite Nat.eqb_refl.
    + destruct (Nat.eqb_spec u x); [congruence|]. apply app_nil_r.
Qed.

Lemma addl_absent u v lw L : ~ In v (map e_dst L) -> addl u v lw L = L ++ [mkEdge u v lw].
Proof.
  intros H. unfold addl. destruct (existsb _ L) eqn:E; [|reflexivity]. exfalso. apply H. apply existsb_exists in E.
  destruct E as (e & He & E). apply Nat.eqb_eq in E. subst. now apply in_map.
Qed.

Lemma addl_same u lw L e : In e L -> NoDup (map e_dst L) -> e_src e = u -> lw = None \/ lw = e_lw e -> addl u (e_dst e) lw L = L.
Proof.
  intros He ND Hs Hl. unfold addl. destruct (existsb _ L) eqn:E.
  - clear E. rewrite <- (map_id L) at 2. apply map_ext_in. intros a Ha. destruct (Nat.eqb_spec (e_dst a) (e_dst e)) as [E|]; [|reflexivity].
    assert (a = e) as -> by (eapply SimplifyFacts.NoDup_map_unique; eauto). destruct e as [s d w]. cbn in *. subst s.
    destruct Hl as [->|Hl]; [reflexivity|]. subst lw. now destruct w.
  - exfalso. assert (T : existsb (fun e0 => e_dst e0 =? e_dst e) L = true) by (apply existsb_exists; exists e; split; [auto|apply Nat.eqb_refl]).
    congruence.
Qed.

Lemma add_edge_wf g u v lw : wf g -> In u (node_ids g) -> In v (node_ids g) -> wf (add_edge g u v lw).
Proof.
  intros [N E S T] Hu Hv. unfold add_edge. destruct (existsb (is_edge u v) (g_edges g)) eqn:X.
  - assert (P : map (fun e => (e_src e, e_dst e)) (map (fun e => if is_edge u v e then mkEdge u v match lw with Some w => Some w | None => e_lw e end else e) (g_edges g))
               = map (fun e => (e_src e, e_dst e)) (g_edges g)).
    { rewrite map_map. apply map_ext. intros e. unfold is_edge. destruct (Nat.eqb_spec (e_src e) u), (Nat.eqb_spec (e_dst e) v); cbn; congruence. }
    constructor; cbn [g_edges]; [exact N|now rewrite P| |]; intros e He; apply in_map_iff in He; destruct He as (e0 & <- & He);
      destruct (is_edge u v e0); cbn [e_src e_dst]; auto; try (apply S; auto); apply T; auto.
  - constructor; cbn [g_edges]; [exact N| | |].
    + rewrite map_app. apply SimplifyFacts.NoDup_app_intro; [exact E|repeat constructor; intros []|]. intros x Hx [<-|[]].
      apply in_map_iff in Hx. destruct Hx as (e & He & Hi). cbn in He. injection He as E1 E2.
      assert (Z : existsb (is_edge u v) (g_edges g) = true) by (apply existsb_exists; exists e; split; [auto|]; unfold is_edge; rewrite E1, E2, !Nat.eqb_refl; auto).
      congruence.
    + intros e He. apply in_app_iff in He. destruct He as [He|[<-|[]]]; [now apply S|exact Hu].
    + intros e He. apply in_app_iff in He. destruct He as [He|[<-|[]]]; [now apply T|exact Hv].
Qed.

Lemma out_NoDup g u : wf g -> NoDup (map e_dst (out_edges g u)).
Proof.
  intros [_ E _ _]. unfold out_edges. induction (g_edges g) as [|e l IH]; [constructor|]. cbn [map] in E. apply NoDup_cons_iff in E.
  destruct E as [E1 E2]. cbn [filter]. destruct (Nat.eqb_spec (e_src e) u) as [Hu|]; [|auto]. cbn [map]. constructor; [|auto].
  intros X. apply in_map_iff in X. destruct X as (a & Ha & Hi). apply filter_In in Hi. destruct Hi as [Hi Hs]. apply Nat.eqb_eq in Hs.
  apply E1. apply in_map_iff. exists a. split; [congruence|auto].
Qed.

Lemma out_src g u e : In e (out_edges g u) -> e_src e = u.
Proof. intros H. apply out_edges_In in H. tauto. Qed.

Lemma out_outside g u : wf g -> ~ In u (node_ids g) -> out_edges g u = [].
Proof.
  intros W H. destruct (out_edges g u) as [|e l] eqn:E; [reflexivity|]. exfalso. apply H.
  assert (He : In e (out_edges g u)) by (rewrite E; now left). apply out_edges_In in He. destruct He as [He <-]. now apply (wf_src _ W).
Qed.

(** ** Adding nodes *)

Lemma add_node_out g u k x : out_edges (add_node g u k) x = out_edges g x.
Proof. unfold add_node, out_edges. destruct (has_node g u); reflexivity. Qed.

Lemma add_node_ids g u k x : In x (node_ids (add_node g u k)) <-> In x (node_ids g) \/ x = u.
Proof.
  unfold add_node. destruct (has_node g u) eqn:E.
  - apply has_node_In in E. split; [auto|]. intros [H| ->]; auto.
  - unfold node_ids. cbn [g_nodes]. rewrite map_app, in_app_iff. cbn. intuition congruence.
Qed.

Lemma node_kind_none g u : ~ In u (node_ids g) -> node_kind g u = None.
Proof. intros H. destruct (node_kind g u) eqn:E; [|reflexivity]. exfalso. apply H. eapply node_kind_ids; eauto. Qed.

Lemma add_node_kind_old g u k x : In x (node_ids g) -> node_kind (add_node g u k) x = node_kind g x.
Proof.
  intros H. unfold add_node. destruct (has_node g u) eqn:E; [reflexivity|]. unfold node_kind. cbn [g_nodes].
  assert (Hf : find (fun p => fst p =? x) (g_nodes g) <> None).
  { intros X. apply in_map_iff in H. destruct H as (p & <- & H). apply (find_none _ _ X) in H. rewrite Nat.eqb_refl in H. discriminate. }
  destruct (find (fun p => fst p =? x) (g_nodes g)) eqn:F; [|congruence]. 
  assert (G : forall l m, find (fun p : id * ukind D => fst p =? x) l = Some p -> find (fun p : id * ukind D => fst p =? x) (l ++ m) = Some p).
  { clear. intros l m. induction l as [|a l IH]; cbn [find app]; [discriminate|]. intros X. destruct (fst a =? x); [exact X|exact (IH X)]. }
  now rewrite (G _ _ F).
Qed.

Lemma add_node_kind_new g u k : ~ In u (node_ids g) -> node_kind (add_node g u k) u = Some k.
Proof.
  intros H. unfold add_node. destruct (has_node g u) eqn:E; [apply has_node_In in E; tauto|]. unfold node_kind. cbn [g_nodes].
  assert (F : find (fun p : id * ukind D => fst p =? u) (g_nodes g ++ [(u, k)]) = Some (u, k)).
  { unfold node_ids in H. clear E. induction (g_nodes g) as [|a l IH]; cbn; [now rewrite Nat.eqb_refl|].
    destruct (Nat.eqb_spec (fst a) u) as [E|]; [exfalso; apply H; now left|]. apply IH. intros X. apply H. now right. }
  cbv [id] in *. now rewrite F.
Qed.

Lemma add_node_kind_other g u k x : x <> u -> node_kind (add_node g u k) x = node_kind g x.
Proof.
  intros N. destruct (in_dec Nat.eq_dec x (node_ids g)) as [H|H]; [now apply add_node_kind_old|].
  rewrite !node_kind_none; [reflexivity|auto|]. rewrite add_node_ids. tauto.
Qed.

Lemma add_node_wf g u k : wf g -> wf (add_node g u k).
Proof.
  intros W. assert (I := add_node_ids g u k). unfold add_node in *. destruct (has_node g u) eqn:E; [exact W|]. destruct W as [N Ed S T].
  constructor; cbn [g_edges]; [|exact Ed| |].
  - unfold node_ids. cbn [g_nodes]. rewrite map_app. apply SimplifyFacts.NoDup_app_intro; [exact N|repeat constructor; intros []|].
    intros x Hx [<-|[]]. apply existsb_eqb_nIn in E. auto.
  - intros e He. apply I. left. now apply S.
  - intros e He. apply I. left. now apply T.
Qed.

(** ** Removing an edge *)

Lemma remove_edge_spec g u v g' : remove_edge g u v = Some g' ->
  (forall x, out_edges g' x = if x =? u then filter (fun e => negb (e_dst e =? v)) (out_edges g u) else out_edges g x) /\
  g_nodes g' = g_nodes g /\ (wf g -> wf g').
Proof.
  unfold remove_edge. destruct (existsb (is_edge u v) (g_edges g)); [|discriminate]. intros H. injection H as <-. split; [|split; [reflexivity|]].
  - intros x. unfold out_edges. cbn [g_edges]. unfold is_edge. induction (g_edges g) as [|e l IH]; [now destruct (x =? u)|].
    cbn [filter]. destruct (Nat.eqb_spec (e_src e) u) as [E|E]; cbn [andb negb].
    + destruct (Nat.eqb_spec (e_dst e) v) as [E2|E2]; cbn [negb filter].
      * rewrite IH. destruct (Nat.eqb_spec x u) as [Ex|]; [now rewrite E2, Nat.eqb_refl|]. destruct (Nat.eqb_spec (e_src e) x); [congruence|reflexivity].
      * destruct (Nat.eqb_spec x u) as [Ex|Ex].
        -- subst x. rewrite E, Nat.eqb_refl. destruct (Nat.eqb_spec (e_dst e) v); [congruence|]. cbn [negb]. now rewrite IH.
        -- destruct (Nat.eqb_spec (e_src e) x); [congruence|]. exact IH.
    + cbn [filter]. destruct (Nat.eqb_spec x u) as [Ex|Ex].
      * subst x. destruct (Nat.eqb_spec (e_src e) u); [congruence|exact IH].
      * destruct (e_src e =? x); now rewrite IH.
  - intros [N E S T]. constructor; cbn [g_edges]; [exact N| | |].
    + now apply SimplifyFacts.NoDup_map_filter.
    + intros e He. apply filter_In in He. now apply S.
    + intros e He. apply filter_In in He. now apply T.
Qed.

(** ** Adding a circuit *)

Lemma fold_add_edge_out (f : edge -> option num) l : forall g x,
  out_edges (fold_left (fun acc e => add_edge acc (e_src e) (e_dst e) (f e)) l g) x
  = fold_left (fun L e => addl x (e_dst e) (f e) L) (filter (fun e => e_src e =? x) l) (out_edges g x).
Proof.
  induction l as [|e l IH]; intros g x; cbn [fold_left filter]; [reflexivity|]. rewrite IH, add_edge_out.
  rewrite (Nat.eqb_sym (e_src e)). destruct (Nat.eqb_spec x (e_src e)) as [->|N]; cbn [fold_left]; reflexivity.
Qed.

Lemma fold_add_edge_nodes (f : edge -> option num) l : forall g,
  g_nodes (fold_left (fun acc e => add_edge acc (e_src e) (e_dst e) (f e)) l g) = g_nodes g.
Proof.
  induction l as [|e l IH]; intros g; cbn [fold_left]; [reflexivity|]. rewrite IH. unfold add_edge. destruct existsb; reflexivity.
Qed.

Lemma fold_add_edge_wf (f : edge -> option num) l : forall g, wf g ->
  (forall e, In e l -> In (e_src e) (node_ids g) /\ In (e_dst e) (node_ids g)) ->
  wf (fold_left (fun acc e => add_edge acc (e_src e) (e_dst e) (f e)) l g).
Proof.
  induction l as [|e l IH]; intros g W H; cbn [fold_left]; [exact W|]. apply IH.
  - apply add_edge_wf; auto; apply H; now left.
  - intros a Ha. rewrite add_edge_ids. apply H. now right.
Qed.

Definition bare (e : edge) : edge := mkEdge (e_src e) (e_dst e) None.
Definition has_weight (e : edge) : bool := match e_lw e with Some _ => true | None => false end.

Lemma addl_bare x L : Forall (fun e => e_src e = x) L -> forall L0, NoDup (map e_dst (L0 ++ L)) ->
  fold_left (fun K e => addl x (e_dst e) None K) L L0 = L0 ++ map bare L.
Proof.
  induction 1 as [|e L He HL IH]; intros L0 ND; cbn [fold_left map]; [now rewrite app_nil_r|]. rewrite addl_absent.
  - rewrite IH.
    + rewrite <- app_assoc. unfold bare. now rewrite He.
    + rewrite <- app_assoc. rewrite map_app in *. cbn [map app] in *. exact ND.
  - rewrite map_app in ND. cbn in ND. apply NoDup_remove_2 in ND. intros X. apply ND. apply in_app_iff. auto.
Qed.

Lemma addl_weight x e w pre post : NoDup (map e_dst (pre ++ e :: post)) ->
  addl x (e_dst e) (Some w) (pre ++ e :: post) = pre ++ mkEdge x (e_dst e) (Some w) :: post.
Proof.
  intros ND. unfold addl. rewrite existsb_app. cbn [existsb]. rewrite Nat.eqb_refl. rewrite orb_true_l, orb_true_r.
  rewrite map_app in *. cbn [map] in *. rewrite Nat.eqb_refl. apply NoDup_remove_2 in ND.
  assert (P : forall l, ~ In (e_dst e) (map e_dst l) ->
    map (fun a => if e_dst a =? e_dst e then mkEdge x (e_dst e) (Some w) else a) l = l).
  { intros l Hl. rewrite <- (map_id l) at 2. apply map_ext_in. intros a Ha. destruct (Nat.eqb_spec (e_dst a) (e_dst e)) as [E|]; [|reflexivity].
    exfalso. apply Hl. rewrite <- E. now apply in_map. }
  rewrite !P; [reflexivity| |]; intros X; apply ND; apply in_app_iff; auto.
Qed.

Lemma addl_weights x L : Forall (fun e => e_src e = x) L -> forall L0, NoDup (map e_dst (L0 ++ L)) ->
  fold_left (fun K e => addl x (e_dst e) (e_lw e) K) (filter has_weight L) (L0 ++ map bare L) = L0 ++ L.
Proof.
  induction 1 as [|e L He HL IH]; intros L0 ND; cbn [fold_left map filter]; [reflexivity|].
  assert (ND' : NoDup (map e_dst ((L0 ++ [e]) ++ L))) by (rewrite <- app_assoc; exact ND).
  assert (Hb : map e_dst (map bare L) = map e_dst L) by (rewrite map_map; reflexivity).
  destruct e as [s d [w|]]; cbn [e_src] in He; subst s;
    match goal with |- context [if has_weight ?e then _ else _] => let v := eval cbn in (has_weight e) in change (has_weight e) with v end; cbn [e_lw e_src e_dst fold_left] in *.
  - cbn [bare e_src e_dst] in *. change d with (e_dst (bare (mkEdge x d (Some w)))) at 1.
    rewrite addl_weight.
    + cbn [e_dst bare]. change (L0 ++ mkEdge x d (Some w) :: map bare L) with (L0 ++ [mkEdge x d (Some w)] ++ map bare L).
      rewrite app_assoc, (IH _ ND'). now rewrite <- app_assoc.
    + rewrite map_app in *. cbn [map bare e_dst] in *. rewrite Hb. exact ND.
  - change (bare (mkEdge x d None) :: map bare L) with ([mkEdge x d None] ++ map bare L).
    rewrite app_assoc, (IH _ ND'). now rewrite <- app_assoc.
Qed.

Lemma addl_noop x (f : edge -> option num) L l : Forall (fun e => e_src e = x) L -> NoDup (map e_dst L) -> incl l L ->
  (forall e, f e = None \/ f e = e_lw e) -> fold_left (fun K e => addl x (e_dst e) (f e) K) l L = L.
Proof.
  intros HL ND. induction l as [|e l IH]; intros Hi Hf; cbn [fold_left]; [reflexivity|]. rewrite addl_same; auto.
  - apply IH; auto. intros a Ha. apply Hi. now right.
  - apply Hi. now left.
  - rewrite Forall_forall in HL. apply HL, Hi. now left.
Qed.

Lemma out_all_src g x : Forall (fun e => e_src e = x) (out_edges g x).
Proof. apply Forall_forall. intros e He. eapply out_src; eauto. Qed.

Lemma edges_iter_filter h x : NoDup (node_ids h) -> In x (node_ids h) -> filter (fun e => e_src e =? x) (edges_iter h) = out_edges h x.
Proof.
  intros ND Hx. unfold edges_iter. rewrite filter_flat_map by auto. apply existsb_eqb_In in Hx. now rewrite Hx.
Qed.

Lemma edges_iter_filter_none h x : NoDup (node_ids h) -> ~ In x (node_ids h) -> filter (fun e => e_src e =? x) (edges_iter h) = [].
Proof.
  intros ND Hx. unfold edges_iter. rewrite filter_flat_map by auto. apply existsb_eqb_nIn in Hx. now rewrite Hx.
Qed.

Lemma filter_comm {A} (p q : A -> bool) l : filter p (filter q l) = filter q (filter p l).
Proof.
  induction l as [|a l IH]; [reflexivity|]. cbn [filter].
  destruct (p a) eqn:P; destruct (q a) eqn:Q; cbn [filter]; rewrite ?P, ?Q, ?IH; reflexivity.
Qed.

Lemma fold_add_node ns : forall g, wf g ->
  let g' := fold_left (fun acc p => add_node acc (fst p) (snd p)) ns g in
  wf g' /\ (forall x, out_edges g' x = out_edges g x) /\ (forall x, In x (node_ids g') <-> In x (node_ids g) \/ In x (map fst ns)) /\
  (forall x, In x (node_ids g) -> node_kind g' x = node_kind g x).
Proof.
  induction ns as [|p ns IH]; intros g W; cbn [fold_left map].
  - split; [exact W|]. split; [reflexivity|]. split; [|reflexivity]. cbn. tauto.
  - destruct (IH _ (add_node_wf g (fst p) (snd p) W)) as (A & B & C & E). split; [exact A|]. split; [|split].
    + intros x. rewrite B. apply add_node_out.
    + intros x. rewrite C, add_node_ids. cbn. intuition.
    + intros x Hx. rewrite E by (apply add_node_ids; auto). now apply add_node_kind_old.
Qed.

Lemma fold_add_node_kind ns : forall g x k, wf g -> NoDup (map fst ns) -> ~ In x (node_ids g) -> In (x, k) ns ->
  node_kind (fold_left (fun acc p => add_node acc (fst p) (snd p)) ns g) x = Some k.
Proof.
  induction ns as [|[u k'] ns IH]; intros g x k W ND Hx Hin; [destruct Hin|]. cbn [fold_left fst snd map] in *.
  apply NoDup_cons_iff in ND. destruct ND as [N1 N2]. destruct Hin as [E|Hin].
  - injection E as -> ->. destruct (fold_add_node ns _ (add_node_wf g x k W)) as (_ & _ & _ & E).
    rewrite E by (apply add_node_ids; auto). now apply add_node_kind_new.
  - apply IH; auto using add_node_wf. rewrite add_node_ids. intros [X| ->]; [auto|]. apply N1. apply (in_map fst) in Hin. exact Hin.
Qed.

(** Units of [h] that are already in [g] are there with the same kind and edges. *)
Definition embeds h g : Prop := forall x, In x (node_ids h) -> In x (node_ids g) -> node_kind g x = node_kind h x /\ out_edges g x = out_edges h x.

Lemma add_circuit_spec g h : wf g -> wf h -> embeds h g ->
  let g' := add_circuit g h in
  wf g' /\ (forall x, In x (node_ids g') <-> In x (node_ids g) \/ In x (node_ids h)) /\
  (forall x, In x (node_ids g) -> node_kind g' x = node_kind g x /\ out_edges g' x = out_edges g x) /\
  (forall x, In x (node_ids h) -> node_kind g' x = node_kind h x /\ out_edges g' x = out_edges h x).
Proof.
  intros W Wh Em. cbn zeta. unfold add_circuit, unweighted_edges, log_weighted_edges.
  destruct (fold_add_node (g_nodes h) g W) as (W0 & O0 & I0 & K0).
  set (g0 := fold_left (fun acc p => add_node acc (fst p) (snd p)) (g_nodes h) g) in *.
  set (g1 := fold_left (fun acc e => add_edge acc (e_src e) (e_dst e) None) (edges_iter h) g0).
  assert (E1 : forall e, In e (edges_iter h) -> In (e_src e) (node_ids g0) /\ In (e_dst e) (node_ids g0)).
  { intros e He. apply edges_iter_in in He. destruct He as [He _]. split; apply I0; right; [now apply (wf_src _ Wh)|now apply (wf_dst _ Wh)]. }
  assert (N1 : g_nodes g1 = g_nodes g0) by apply (fold_add_edge_nodes (fun _ => None)).
  assert (W1 : wf g1) by (apply (fold_add_edge_wf (fun _ => None)); auto).
  match goal with |- wf ?G /\ _ => set (g2 := G) end.
  assert (N2 : g_nodes g2 = g_nodes g0) by (unfold g2; rewrite (fold_add_edge_nodes e_lw); exact N1).
  assert (I2 : forall x, In x (node_ids g2) <-> In x (node_ids g) \/ In x (node_ids h)) by (intros x; unfold node_ids at 1; rewrite N2; apply I0).
  assert (W2 : wf g2).
  { apply (fold_add_edge_wf e_lw); [exact W1|]. intros e He. apply filter_In in He. destruct He as [He _]. unfold node_ids. rewrite N1. apply E1, He. }
  assert (O2 : forall x, out_edges g2 x = fold_left (fun L e => addl x (e_dst e) (e_lw e) L) (filter has_weight (filter (fun e => e_src e =? x) (edges_iter h)))
      (fold_left (fun L e => addl x (e_dst e) None L) (filter (fun e => e_src e =? x) (edges_iter h)) (out_edges g x))).
  { intros x. unfold g2. rewrite (fold_add_edge_out e_lw), filter_comm. unfold g1. rewrite (fold_add_edge_out (fun _ => None)). rewrite O0. reflexivity. }
  assert (Kk : forall x, node_kind g2 x = node_kind g0 x) by (intros x; unfold node_kind; now rewrite N2).
  assert (Same : forall x, In x (node_ids h) -> In x (node_ids g) -> out_edges g2 x = out_edges h x).
  { intros x Hh Hg. destruct (Em x Hh Hg) as [_ Eo]. rewrite O2, edges_iter_filter by (auto; apply Wh). rewrite Eo.
    rewrite (addl_noop x (fun _ => None)) by (auto using out_all_src, out_NoDup, incl_refl).
    apply (addl_noop x e_lw); auto using out_all_src, out_NoDup, incl_filter. }
  assert (New : forall x, In x (node_ids h) -> ~ In x (node_ids g) -> out_edges g2 x = out_edges h x).
  { intros x Hh Hg. rewrite O2, edges_iter_filter by (auto; apply Wh). rewrite (out_outside g x W Hg).
    rewrite addl_bare; [|apply out_all_src|now apply out_NoDup]. rewrite addl_weights; [reflexivity|apply out_all_src|now apply out_NoDup]. }
  split; [exact W2|]. split; [exact I2|]. split.
  - intros x Hx. rewrite Kk, K0 by auto. split; [reflexivity|].
    destruct (in_dec Nat.eq_dec x (node_ids h)) as [Hh|Hh].
    + rewrite Same by auto. symmetry. now apply Em.
    + rewrite O2, edges_iter_filter_none by (auto; apply Wh). reflexivity.
  - intros x Hx. destruct (in_dec Nat.eq_dec x (node_ids g)) as [Hg|Hg].
    + split; [|auto]. rewrite Kk, K0 by auto. now apply Em.
    + split; [|auto]. rewrite Kk. destruct (node_kind_complete h x Hx) as [k Hk]. rewrite Hk.
      apply fold_add_node_kind; [auto|apply Wh|auto|]. now apply node_kind_In.
Qed.
End Ops.
