(** * Relate: the structural operations do not look at the distributions

    Proof file for C83.  [grel R f g g']: [g'] is [g] with every unit [u] replaced by the unit [f u] and every distribution
    replaced by one that [R] relates to it.  Every operation of [Graph], [Simplify] and [Conditional] takes related circuits
    to related circuits, and raises on both or on none. *)
From Coq Require Import List Arith Bool Lia Reals.
From Verif Require Import Num Graph GraphFacts Spec SpecFacts Circuit Simplify Conditional Rename MoveFacts.
Import ListNotations.
Local Open Scope nat_scope.
Local Set Bullet Behavior "Strict Subproofs".

Definition orel {X Y} (P : X -> Y -> Prop) (x : option X) (y : option Y) : Prop :=
  match x, y with
  | Some a, Some b => P a b
  | None, None => True
  | _, _ => False
  end.

Lemma orel_impl {X Y} (P Q : X -> Y -> Prop) x y : (forall a b, P a b -> Q a b) -> orel P x y -> orel Q x y.
Proof. intros H. destruct x, y; cbn; auto. Qed.

Lemma foldM_rel {S S' A A'} (P : S -> S' -> Prop) (h : A -> A') (k : S -> A -> option S) (k' : S' -> A' -> option S') l :
  (forall s s' a, In a l -> P s s' -> orel P (k s a) (k' s' (h a))) ->
  forall s s', P s s' -> orel P (foldM k l s) (foldM k' (map h l) s').
Proof.
  induction l as [|a l IH]; intros Hk s s' H; cbn [foldM map]; [exact H|].
  pose proof (Hk s s' a (or_introl eq_refl) H) as X.
  destruct (k s a) as [s1|], (k' s' (h a)) as [s1'|]; cbn in X; try contradiction; [|exact I].
  apply IH; [|exact X]. intros. apply Hk; [now right|assumption].
Qed.

Lemma fold_left_rel {S S' A A'} (P : S -> S' -> Prop) (h : A -> A') (k : S -> A -> S) (k' : S' -> A' -> S') l :
  (forall s s' a, P s s' -> P (k s a) (k' s' (h a))) ->
  forall s s', P s s' -> P (fold_left k l s) (fold_left k' (map h l) s').
Proof. intros Hk. induction l as [|a l IH]; intros s s' H; cbn; auto. Qed.

Lemma map_filter_comm {A B} (h : A -> B) (p : A -> bool) (q : B -> bool) l : (forall a, q (h a) = p a) ->
  filter q (map h l) = map h (filter p l).
Proof. intros H. induction l as [|a l IH]; [reflexivity|]. cbn. rewrite H, IH. now destruct (p a). Qed.

Lemma Forall2_filter {A B} (P : A -> B -> Prop) (p : A -> bool) (q : B -> bool) l l' :
  (forall a b, P a b -> q b = p a) -> Forall2 P l l' -> Forall2 P (filter p l) (filter q l').
Proof.
  intros H. induction 1 as [|a b l l' X _ IH]; cbn; [constructor|]. rewrite (H a b X). destruct (p a); [now constructor|exact IH].
Qed.

Section Relate.
Context {A B : Type}.
Variables (R : A -> B -> Prop) (f : id -> id).
Hypothesis inj : forall x y, f x = f y -> x = y.

Inductive krel : ukind A -> ukind B -> Prop :=
| kr_leaf : forall a b, R a b -> krel (ULeaf a) (ULeaf b)
| kr_sum : krel USum USum
| kr_prod : krel UProd UProd.

Definition nrel (p : id * ukind A) (q : id * ukind B) : Prop := fst q = f (fst p) /\ krel (snd p) (snd q).

Record grel (g : graph A) (g' : graph B) : Prop := {
  gr_nodes : Forall2 nrel (g_nodes g) (g_nodes g');
  gr_edges : g_edges g' = map (ren_edge f) (g_edges g) }.

Lemma eqb_f x y : (f x =? f y) = (x =? y).
Proof.
  destruct (Nat.eqb_spec x y) as [->|N]; [apply Nat.eqb_refl|]. apply Nat.eqb_neq. intros E. apply N. now apply inj.
Qed.

Lemma mem_f x l : existsb (Nat.eqb (f x)) (map f l) = existsb (Nat.eqb x) l.
Proof. induction l as [|y l IH]; [reflexivity|]. cbn. now rewrite eqb_f, IH. Qed.

Lemma grel_ids g g' : grel g g' -> node_ids g' = map f (node_ids g).
Proof.
  intros [N _]. unfold node_ids. induction N as [|p q l l' [E _] _ IH]; [reflexivity|]. cbn [map]. now rewrite E, IH.
Qed.

Lemma grel_out g g' u : grel g g' -> out_edges g' (f u) = map (ren_edge f) (out_edges g u).
Proof. intros [_ E]. unfold out_edges. rewrite E. apply map_filter_comm. intros e. cbn. apply eqb_f. Qed.

Lemma grel_in g g' u : grel g g' -> in_edges g' (f u) = map (ren_edge f) (in_edges g u).
Proof. intros [_ E]. unfold in_edges. rewrite E. apply map_filter_comm. intros e. cbn. apply eqb_f. Qed.

Lemma grel_sub g g' u : grel g g' -> subcircuits g' (f u) = map f (subcircuits g u).
Proof. intros G. unfold subcircuits. rewrite (grel_out g g' u G), !map_map. reflexivity. Qed.

(** Without their distributions the two circuits differ in the names of the units only. *)
Lemma grel_same g g' : grel g g' -> same_as f (gmap (fun _ => tt) g) (gmap (fun _ => tt) g').
Proof.
  intros G. constructor.
  - exact inj.
  - cbn. rewrite map_map. destruct G as [N _]. induction N as [|p q l l' [E K] _ IH]; [reflexivity|]. cbn [map fst snd].
    rewrite E, IH. f_equal. f_equal. now destruct K.
  - cbn. intros e' He'. rewrite (gr_edges _ _ G) in He'. apply in_map_iff in He'. destruct He' as (e & <- & He). eauto.
  - intros u. exact (grel_out g g' u G).
Qed.

Lemma expand_layer_gmap {D E} (F : D -> E) (g : graph D) ly : forall vis nxt,
  expand_layer (gmap F g) ly vis nxt = expand_layer g ly vis nxt.
Proof.
  induction ly as [|u ly IH]; intros vis nxt; [reflexivity|]. cbn [expand_layer].
  change (subcircuits (gmap F g) u) with (subcircuits g u). destruct (expand_children (subcircuits g u) vis nxt). apply IH.
Qed.

Lemma bfs_gmap {D E} (F : D -> E) (g : graph D) fuel : forall cur vis, bfs_loop (gmap F g) fuel cur vis = bfs_loop g fuel cur vis.
Proof.
  induction fuel as [|n IH]; intros cur vis; destruct cur as [|c cur]; try reflexivity. cbn [bfs_loop].
  rewrite expand_layer_gmap. destruct (expand_layer g (c :: cur) vis []). now rewrite IH.
Qed.

Lemma layers_from_gmap {D E} (F : D -> E) (g : graph D) r : layers_from (gmap F g) r = layers_from g r.
Proof.
  unfold layers_from, has_node. rewrite gmap_ids. destruct (existsb _ _); [|reflexivity]. rewrite bfs_gmap.
  unfold gmap. cbn [g_nodes]. now rewrite map_length.
Qed.

Lemma layers_gmap {D E} (F : D -> E) (g : graph D) : layers (gmap F g) = layers g.
Proof. unfold layers. rewrite gmap_root. destruct (root g); [apply layers_from_gmap|reflexivity]. Qed.

Lemma bottom_up_gmap {D E} (F : D -> E) (g : graph D) : bottom_up (gmap F g) = bottom_up g.
Proof. unfold bottom_up. now rewrite layers_gmap. Qed.

Lemma grel_root g g' : grel g g' -> root g' = option_map f (root g).
Proof.
  intros G. rewrite <- (gmap_root (fun _ => tt) g'), <- (gmap_root (fun _ => tt) g). exact (ren_root f _ _ (grel_same g g' G)).
Qed.

Lemma grel_bottom_up g g' : grel g g' -> bottom_up g' = option_map (map f) (bottom_up g).
Proof.
  intros G. rewrite <- (bottom_up_gmap (fun _ => tt) g'), <- (bottom_up_gmap (fun _ => tt) g).
  exact (ren_bottom_up f _ _ (grel_same g g' G)).
Qed.

Lemma grel_layers_from g g' r : grel g g' -> layers_from g' (f r) = option_map (map (map f)) (layers_from g r).
Proof.
  intros G. rewrite <- (layers_from_gmap (fun _ => tt) g'), <- (layers_from_gmap (fun _ => tt) g).
  exact (ren_layers_from f _ _ (grel_same g g' G) r).
Qed.

Lemma grel_has g g' u : grel g g' -> has_node g' (f u) = has_node g u.
Proof. intros G. unfold has_node. rewrite (grel_ids g g' G). apply mem_f. Qed.

Lemma grel_kind g g' u : grel g g' -> orel krel (node_kind g u) (node_kind g' (f u)).
Proof.
  intros [N _]. unfold node_kind. induction N as [|p q l l' [E K] _ IH]; [exact I|]. cbn [find]. unfold id in *. rewrite E, eqb_f.
  destruct (fst p =? u); [exact K|exact IH].
Qed.

Lemma grel_add_node g g' u k k' : grel g g' -> krel k k' -> grel (add_node g u k) (add_node g' (f u) k').
Proof.
  intros G K. unfold add_node. rewrite (grel_has g g' u G). destruct (has_node g u); [exact G|].
  destruct G as [N E]. constructor; cbn; [|exact E]. apply Forall2_app; [exact N|]. constructor; [|constructor]. now split.
Qed.

Lemma is_edge_f u v e : is_edge (f u) (f v) (ren_edge f e) = is_edge u v e.
Proof. unfold is_edge, ren_edge. cbn. now rewrite !eqb_f. Qed.

Lemma existsb_edge u v l : existsb (is_edge (f u) (f v)) (map (ren_edge f) l) = existsb (is_edge u v) l.
Proof. induction l as [|e l IH]; [reflexivity|]. cbn. now rewrite is_edge_f, IH. Qed.

Lemma grel_add_edge g g' u v w : grel g g' -> grel (add_edge g u v w) (add_edge g' (f u) (f v) w).
Proof.
  intros [N E]. unfold add_edge. rewrite E, existsb_edge. destruct (existsb (is_edge u v) (g_edges g)); constructor; cbn; auto.
  - rewrite !map_map. apply map_ext. intros e. rewrite is_edge_f. destruct (is_edge u v e); reflexivity.
  - rewrite map_app. reflexivity.
Qed.

Lemma grel_remove_edge g g' u v : grel g g' -> orel grel (remove_edge g u v) (remove_edge g' (f u) (f v)).
Proof.
  intros [N E]. unfold remove_edge. rewrite E, existsb_edge. destruct (existsb (is_edge u v) (g_edges g)); [|exact I].
  constructor; cbn; auto. apply map_filter_comm. intros e. now rewrite is_edge_f.
Qed.

Lemma grel_drop g g' u : grel g g' -> grel (drop_node g u) (drop_node g' (f u)).
Proof.
  intros [N E]. constructor; cbn.
  - apply Forall2_filter; [|exact N]. intros p q [X _]. unfold id in *. now rewrite X, eqb_f.
  - rewrite E. apply map_filter_comm. intros e. cbn. now rewrite !eqb_f.
Qed.

Lemma grel_remove_node g g' u : grel g g' -> orel grel (remove_node g u) (remove_node g' (f u)).
Proof. intros G. unfold remove_node. rewrite (grel_has g g' u G). destruct (has_node g u); [now apply grel_drop|exact I]. Qed.

Lemma grel_remove_all g g' l : grel g g' -> grel (remove_nodes_from g l) (remove_nodes_from g' (map f l)).
Proof. intros G. unfold remove_nodes_from. apply (fold_left_rel grel f); [|exact G]. intros. now apply grel_drop. Qed.

Lemma grel_unreachable g g' r : grel g g' -> orel grel (remove_unreachable_nodes g r) (remove_unreachable_nodes g' (f r)).
Proof.
  intros G. unfold remove_unreachable_nodes, reachable_list. rewrite (grel_layers_from g g' r G).
  destruct (layers_from g r) as [ls|]; [|exact I]. cbn [option_map orel].
  rewrite <- concat_map, (grel_ids g g' G), (map_filter_comm f (fun u => negb (existsb (Nat.eqb u) (concat ls)))).
  - now apply grel_remove_all.
  - intros u. now rewrite mem_f.
Qed.

(** ** Simplify *)

Lemma grel_connect g g' u c : grel g g' -> grel (connect_incoming_edges_to g u c) (connect_incoming_edges_to g' (f u) (f c)).
Proof.
  intros G. unfold connect_incoming_edges_to. rewrite (grel_in g g' u G).
  apply (fold_left_rel grel (ren_edge f)); [|exact G]. intros s s' e X. cbn. now apply grel_add_edge.
Qed.

Lemma grel_lws g g' u : grel g g' ->
  log_weighted_subcircuits g' (f u) = option_map (map (fun p => (fst p, f (snd p)))) (log_weighted_subcircuits g u).
Proof.
  intros G. unfold log_weighted_subcircuits. rewrite (grel_out g g' u G).
  induction (out_edges g u) as [|e l IH]; [reflexivity|]. unfold mapM in *. cbn [map]. cbn [ren_edge e_lw e_dst].
  destruct (e_lw e) as [w|]; [|reflexivity]. rewrite IH.
  match goal with |- context [option_map _ ?x] => destruct x; reflexivity end.
Qed.

Lemma grel_sum_merge u g g' ws : grel g g' -> orel grel (sum_merge u g ws) (sum_merge (f u) g' (fst ws, f (snd ws))).
Proof.
  intros G. destruct ws as [w s]. unfold sum_merge. cbn [fst snd].
  assert (X : orel grel (if is_ninf w then remove_edge g u s else Some g) (if is_ninf w then remove_edge g' (f u) (f s) else Some g')).
  { destruct (is_ninf w); [now apply grel_remove_edge|exact G]. }
  destruct (if is_ninf w then remove_edge g u s else Some g) as [g1|], (if is_ninf w then remove_edge g' (f u) (f s) else Some g') as [g1'|];
    cbn in X; try contradiction; [|exact I].
  pose proof (grel_kind g1 g1' s X) as K.
  destruct (node_kind g1 s) as [k|], (node_kind g1' (f s)) as [k'|]; cbn in K; try contradiction; [|exact X].
  destruct K; try exact X. rewrite (grel_lws g1 g1' s X).
  destruct (log_weighted_subcircuits g1 s) as [subs|]; [|exact I]. cbn [option_map].
  apply grel_remove_node. apply (fold_left_rel grel (fun p : num * id => (fst p, f (snd p)))); [|exact X].
  intros h h' p Y. cbn. now apply grel_add_edge.
Qed.

Lemma grel_sum_simplify g g' u : grel g g' -> orel grel (sum_simplify g u) (sum_simplify g' (f u)).
Proof.
  intros G. unfold sum_simplify. rewrite (grel_sub g g' u G), (grel_lws g g' u G).
  assert (X : orel grel (match log_weighted_subcircuits g u with None => None | Some l => foldM (sum_merge u) l g end)
    (match option_map (map (fun p => (fst p, f (snd p)))) (log_weighted_subcircuits g u) with
     | None => None | Some l => foldM (sum_merge (f u)) l g' end)).
  { destruct (log_weighted_subcircuits g u) as [l|]; [|exact I]. cbn [option_map].
    apply (foldM_rel grel (fun p : num * id => (fst p, f (snd p)))); [|exact G]. intros s s' a _ Y. now apply grel_sum_merge. }
  destruct (subcircuits g u) as [|c [|c2 cs]]; cbn [map]; try exact X. now apply grel_remove_node, grel_connect.
Qed.

Lemma grel_prod_merge g g' s : grel g g' -> grel (prod_merge g s) (prod_merge g' (f s)).
Proof.
  intros G. unfold prod_merge. pose proof (grel_kind g g' s G) as K.
  destruct (node_kind g s) as [k|], (node_kind g' (f s)) as [k'|]; cbn in K; try contradiction; [|exact G].
  destruct K; try exact G. rewrite (grel_sub g g' s G). apply (fold_left_rel grel f); [|exact G].
  intros h h' x Y. now apply grel_add_edge.
Qed.

Lemma grel_prod_simplify g g' u : grel g g' -> orel grel (prod_simplify g u) (prod_simplify g' (f u)).
Proof.
  intros G. unfold prod_simplify. rewrite (grel_sub g g' u G).
  destruct (subcircuits g u) as [|c [|c2 cs]]; cbn [map]; [exact G|now apply grel_remove_node, grel_connect|].
  cbn [orel]. change (f c :: f c2 :: map f cs) with (map f (c :: c2 :: cs)).
  apply (fold_left_rel grel f); [|exact G]. intros h h' x Y. now apply grel_prod_merge.
Qed.

Lemma grel_unit_simplify g g' u : grel g g' ->
  orel grel (unit_simplify (fun _ => false) g u) (unit_simplify (fun _ => false) g' (f u)).
Proof.
  intros G. unfold unit_simplify. pose proof (grel_kind g g' u G) as K.
  destruct (node_kind g u) as [k|], (node_kind g' (f u)) as [k'|]; cbn in K; try contradiction; [|exact I].
  destruct K; [exact G|now apply grel_sum_simplify|now apply grel_prod_simplify].
Qed.

Lemma grel_simplify g g' : grel g g' -> orel grel (simplify (fun _ => false) g) (simplify (fun _ => false) g').
Proof.
  intros G. unfold simplify. rewrite (grel_bottom_up g g' G). destruct (bottom_up g) as [order|]; [|exact I]. cbn [option_map].
  apply (foldM_rel grel f); [|exact G]. intros s s' a _ Y. now apply grel_unit_simplify.
Qed.

(** ** Normalize *)

Lemma grel_set_weights g g' u h : grel g g' -> grel (set_weights u h g) (set_weights (f u) h g').
Proof.
  intros [N E]. constructor; cbn; [exact N|]. rewrite E, !map_map. apply map_ext. intros e. cbn. rewrite eqb_f.
  destruct (e_src e =? u); reflexivity.
Qed.

Lemma grel_sum_normalize g g' u : grel g g' -> orel grel (sum_normalize g u) (sum_normalize g' (f u)).
Proof.
  intros G. unfold sum_normalize. rewrite (grel_lws g g' u G).
  destruct (log_weighted_subcircuits g u) as [[|p l]|]; cbn [option_map map]; try exact I.
  assert (E : map fst ((fst p, f (snd p)) :: map (fun p0 : num * id => (fst p0, f (snd p0))) l) = map fst (p :: l)).
  { cbn [map fst]. rewrite map_map. reflexivity. }
  cbn [map fst] in E |- *. unfold id in *. rewrite E. exact (grel_set_weights g g' u _ G).
Qed.

Lemma grel_sum_ids g g' : grel g g' -> sum_ids g' = map f (sum_ids g).
Proof.
  intros [N _]. unfold sum_ids. induction N as [|p q l l' [E K] _ IH]; [reflexivity|]. cbn [filter].
  destruct p as [x k], q as [y k']. cbn [fst snd] in *. destruct K; cbn [map fst]; rewrite IH, ?E; reflexivity.
Qed.

Lemma grel_normalize g g' : grel g g' -> orel grel (normalize g) (normalize g').
Proof.
  intros G. unfold normalize. rewrite (grel_sum_ids g g' G). apply (foldM_rel grel f); [|exact G].
  intros s s' a _ Y. now apply grel_sum_normalize.
Qed.

(** ** Marginals *)

Lemma grel_set_kind g g' u k k' : grel g g' -> krel k k' -> grel (set_kind g u k) (set_kind g' (f u) k').
Proof.
  intros [N E] K. constructor; cbn; [|exact E]. induction N as [|p q l l' [X Y] _ IH]; cbn; [constructor|].
  constructor; [|exact IH]. unfold id in *. rewrite X, eqb_f. destruct (fst p =? u); [split; [reflexivity|exact K]|now split].
Qed.

Section Marginal.
Variables (dm : list nat -> A -> option A) (dm' : list nat -> B -> option B) (vs : list nat).
Hypothesis dmr : forall a b, R a b -> orel R (dm vs a) (dm' vs b).

Lemma grel_unit_marginal g g' u : grel g g' ->
  orel (fun x y => grel (fst x) (fst y) /\ snd x = snd y) (unit_marginal dm vs g u) (unit_marginal dm' vs g' (f u)).
Proof.
  intros G. unfold unit_marginal. pose proof (grel_kind g g' u G) as K. pose proof (grel_remove_node g g' u G) as RM.
  assert (RM' : orel (fun x y => grel (fst x) (fst y) /\ snd x = snd y)
    (match remove_node g u with None => None | Some g1 => Some (g1, false) end)
    (match remove_node g' (f u) with None => None | Some g1 => Some (g1, false) end)).
  { destruct (remove_node g u), (remove_node g' (f u)); cbn in RM; try contradiction; [|exact I]. now split. }
  destruct (node_kind g u) as [k|], (node_kind g' (f u)) as [k'|]; cbn in K; try contradiction; [|exact I].
  destruct K as [a b ab| |].
  - pose proof (dmr a b ab) as X. destruct (dm vs a), (dm' vs b); cbn in X; try contradiction; [|exact RM'].
    split; [|reflexivity]. cbn. apply grel_set_kind; [exact G|now constructor].
  - rewrite (grel_sub g g' u G). destruct (subcircuits g u); cbn [map]; [exact RM'|]. now split.
  - rewrite (grel_sub g g' u G). destruct (subcircuits g u); cbn [map]; [exact RM'|]. now split.
Qed.

Lemma grel_marginal_loop g g' : grel g g' ->
  orel (fun x y => grel (fst x) (fst y) /\ snd y = option_map (fun p => (f (fst p), snd p)) (snd x))
       (marginal_loop dm vs g) (marginal_loop dm' vs g').
Proof.
  intros G. unfold marginal_loop. rewrite (grel_bottom_up g g' G). destruct (bottom_up g) as [order|]; [|exact I]. cbn [option_map].
  apply (foldM_rel (fun x y => grel (fst x) (fst y) /\ snd y = option_map (fun p : id * bool => (f (fst p), snd p)) (snd x)) f);
    [|now split].
  intros s s' a _ [Y _]. pose proof (grel_unit_marginal (fst s) (fst s') a Y) as X.
  destruct (unit_marginal dm vs (fst s) a) as [[x b]|], (unit_marginal dm' vs (fst s') (f a)) as [[y b']|]; cbn in X;
    try contradiction; [|exact I]. destruct X as [X <-]. now split.
Qed.

Lemma grel_marginal g g' : grel g g' ->
  orel (orel grel) (marginal_in_place (fun _ => false) dm vs g) (marginal_in_place (fun _ => false) dm' vs g').
Proof.
  intros G. unfold marginal_in_place. pose proof (grel_marginal_loop g g' G) as X.
  destruct (marginal_loop dm vs g) as [[g1 o]|], (marginal_loop dm' vs g') as [[g1' o']|]; cbn in X; try contradiction; [|exact I].
  destruct X as [X ->]. destruct o as [[u [|]]|]; cbn; try exact I.
  pose proof (grel_unreachable g1 g1' u X) as Y.
  destruct (remove_unreachable_nodes g1 u) as [g2|], (remove_unreachable_nodes g1' (f u)) as [g2'|]; cbn in Y; try contradiction; [|exact I].
  pose proof (grel_simplify g2 g2' Y) as Z.
  destruct (simplify (fun _ => false) g2), (simplify (fun _ => false) g2'); cbn in Z; try contradiction; [exact Z|exact I].
Qed.
End Marginal.

(** ** Conditioning *)

Definition srel (st st' : store num) : Prop := forall x, st' (f x) = st x.

Lemma srel_upd st st' u v : srel st st' -> srel (upd st u v) (upd st' (f u) v).
Proof. intros S x. unfold upd. rewrite eqb_f. destruct (x =? u); [reflexivity|apply S]. Qed.

Lemma srel_clear st st' u : srel st st' -> srel (clear st u) (clear st' (f u)).
Proof. intros S x. unfold clear. rewrite eqb_f. destruct (x =? u); [reflexivity|apply S]. Qed.

(** The next unused unit: from it on, [f] adds a constant. *)
Definition nxrel (nx nx' : nat) : Prop := forall i, f (nx + i) = nx' + i.

Lemma nxrel_now nx nx' : nxrel nx nx' -> f nx = nx'.
Proof. intros H. specialize (H 0). now rewrite !Nat.add_0_r in H. Qed.

Lemma nxrel_next nx nx' : nxrel nx nx' -> nxrel (S nx) (S nx').
Proof. intros H i. specialize (H (S i)). rewrite !Nat.add_succ_r in H. exact H. Qed.

Definition crel (x : graph A * store num * nat) (y : graph B * store num * nat) : Prop :=
  grel (fst (fst x)) (fst (fst y)) /\ srel (snd (fst x)) (snd (fst y)) /\ nxrel (snd x) (snd y).

Lemma crel_add_part s x y w d d' : R d d' -> crel x y -> crel (add_part s x (w, d)) (add_part (f s) y (w, d')).
Proof.
  intros Rd. destruct x as [[g st] nx], y as [[g' st'] nx']. intros (G & S & N). cbn [fst snd] in *.
  pose proof (nxrel_now _ _ N) as E. unfold add_part. cbn [fst snd]. split; [|split]; cbn [fst snd].
  - rewrite <- E. apply grel_add_edge, grel_add_node; [exact G|now constructor].
  - rewrite <- E. now apply srel_clear.
  - now apply nxrel_next.
Qed.

Lemma crel_add_parts s l l' : Forall2 (fun p q => fst p = fst q /\ R (snd p) (snd q)) l l' ->
  forall x y, crel x y -> crel (fold_left (add_part s) l x) (fold_left (add_part (f s)) l' y).
Proof.
  induction 1 as [|[w d] [w' d'] l l' [E X] _ IH]; intros x y C; cbn [fold_left]; [exact C|].
  cbn in E, X. subst w'. apply IH. now apply crel_add_part.
Qed.

Inductive lrel : lres A -> lres B -> Prop :=
| lr_dead : lrel LDead LDead
| lr_one : forall a b lp, R a b -> lrel (LOne a lp) (LOne b lp)
| lr_many : forall l l' lp, Forall2 (fun p q => fst p = fst q /\ R (snd p) (snd q)) l l' -> lrel (LMany l lp) (LMany l' lp).

Lemma crel_leaf (lc : A -> option (lres A)) (lc' : B -> option (lres B)) x y u d d' :
  orel lrel (lc d) (lc' d') -> crel x y -> orel crel (leaf_conditional lc x u d) (leaf_conditional lc' y (f u) d').
Proof.
  destruct x as [[g st] nx], y as [[g' st'] nx']. intros L (G & S & N). cbn [fst snd] in *. unfold leaf_conditional.
  destruct (lc d) as [r|], (lc' d') as [r'|]; cbn in L; try contradiction; [|exact I].
  destruct L as [|a b lp ab|l l' lp F].
  - split; [exact G|]. split; [now apply srel_upd|exact N].
  - split; [|split]; cbn [fst snd]; [apply grel_set_kind; [exact G|now constructor]|now apply srel_upd|exact N].
  - pose proof (nxrel_now _ _ N) as E. rewrite <- E.
    assert (C0 : crel (add_node g nx USum, clear st nx, Datatypes.S nx) (add_node g' (f nx) USum, clear st' (f nx), Datatypes.S (f nx))).
    { split; [|split]; cbn [fst snd]; [apply grel_add_node; [exact G|constructor]|now apply srel_clear|rewrite E; now apply nxrel_next]. }
    pose proof (crel_add_parts nx l l' F _ _ C0) as C.
    destruct (fold_left (add_part nx) l _) as [[g1 st1] nx1], (fold_left (add_part (f nx)) l' _) as [[g1' st1'] nx1'].
    destruct C as (G1 & S1 & N1). cbn [fst snd] in *.
    pose proof (grel_remove_node _ _ u (grel_connect g1 g1' u nx G1)) as X.
    destruct (remove_node (connect_incoming_edges_to g1 u nx) u) as [g2|], (remove_node (connect_incoming_edges_to g1' (f u) (f nx)) (f u)) as [g2'|];
      cbn in X; try contradiction; [|exact I].
    pose proof (grel_sum_normalize g2 g2' nx X) as Y.
    destruct (sum_normalize g2 nx) as [g3|], (sum_normalize g2' (f nx)) as [g3'|]; cbn in Y; try contradiction; [|exact I].
    split; [exact Y|]. split; [now apply srel_upd|exact N1].
Qed.

Lemma grel_eval_unit g g' st st' u : grel g g' -> srel st st' ->
  (forall d, node_kind g u <> Some (ULeaf d)) ->
  eval_unit (fun _ => None) sum_log_forward prod_log_forward g' st' (f u)
  = eval_unit (fun _ => None) sum_log_forward prod_log_forward g st u.
Proof.
  intros G S NL. unfold eval_unit. pose proof (grel_kind g g' u G) as K.
  destruct (node_kind g u) as [k|], (node_kind g' (f u)) as [k'|]; cbn in K; try contradiction; [|reflexivity].
  destruct K as [a b ab| |]; [congruence| |]; rewrite (grel_out g g' u G), mapM_map.
  - rewrite (mapM_ext_in _ (fun e => match e_lw e, st (e_dst e) with Some w, Some v => Some (w, v) | _, _ => None end)); [reflexivity|].
    intros e _. cbn [ren_edge e_lw e_dst]. now rewrite S.
  - rewrite (mapM_ext_in _ (fun e => st (e_dst e))); [reflexivity|]. intros e _. cbn [ren_edge e_dst]. now rewrite S.
Qed.

Lemma crel_inner (lc : A -> option (lres A)) (lc' : B -> option (lres B)) x y u :
  (forall d, node_kind (fst (fst x)) u <> Some (ULeaf d)) -> crel x y ->
  orel crel (unit_conditional lc x u) (unit_conditional lc' y (f u)).
Proof.
  intros NL (G & S & N). unfold unit_conditional. rewrite (grel_eval_unit _ _ _ _ u G S NL).
  pose proof (grel_kind _ _ u G) as K.
  assert (X : orel crel
    (match eval_unit (fun _ => None) sum_log_forward prod_log_forward (fst (fst x)) (snd (fst x)) u with
     | None => None | Some v => Some (fst (fst x), upd (snd (fst x)) u v, snd x) end)
    (match eval_unit (fun _ => None) sum_log_forward prod_log_forward (fst (fst x)) (snd (fst x)) u with
     | None => None | Some v => Some (fst (fst y), upd (snd (fst y)) (f u) v, snd y) end)).
  { destruct (eval_unit _ _ _ _ _ _); [|exact I]. split; [exact G|]. split; [now apply srel_upd|exact N]. }
  destruct (node_kind (fst (fst x)) u) as [k|], (node_kind (fst (fst y)) (f u)) as [k'|]; cbn in K; try contradiction; [|exact X].
  destruct K as [a b ab| |]; [now destruct (NL a)|exact X|exact X].
Qed.

Lemma grel_remove_some g g' l : grel g g' -> orel grel (foldM remove_node l g) (foldM remove_node (map f l) g').
Proof. intros G. apply (foldM_rel grel f); [|exact G]. intros s s' a _ Y. now apply grel_remove_node. Qed.

Lemma srel_ninf st st' l : srel st st' -> filter (result_is_ninf st') (map f l) = map f (filter (result_is_ninf st) l).
Proof. intros S. apply map_filter_comm. intros u. unfold result_is_ninf. now rewrite S. Qed.

Lemma grel_finish g g' st st' : grel g g' -> srel st st' ->
  orel (fun x y => orel grel (fst x) (fst y) /\ snd x = snd y) (conditional_finish g st) (conditional_finish g' st').
Proof.
  intros G S. unfold conditional_finish. rewrite (grel_root g g' G), (grel_bottom_up g g' G).
  destruct (root g) as [r|]; [|exact I]. destruct (bottom_up g) as [order|]; [|exact I]. cbn [option_map].
  rewrite (srel_ninf st st' order S). pose proof (grel_remove_some g g' (filter (result_is_ninf st) order) G) as X.
  destruct (foldM remove_node _ g) as [g2|], (foldM remove_node _ g') as [g2'|]; cbn in X; try contradiction; [|exact I].
  rewrite (grel_has g2 g2' r X). destruct (has_node g2 r); cbn [negb]; [|now split].
  pose proof (grel_unreachable g2 g2' r X) as Y.
  destruct (remove_unreachable_nodes g2 r) as [g3|], (remove_unreachable_nodes g2' (f r)) as [g3'|]; cbn in Y; try contradiction; [|exact I].
  pose proof (grel_simplify g3 g3' Y) as Z.
  destruct (simplify (fun _ => false) g3) as [g4|], (simplify (fun _ => false) g3') as [g4'|]; cbn in Z; try contradiction; [|exact I].
  pose proof (grel_normalize g4 g4' Z) as V. rewrite S.
  destruct (normalize g4) as [g5|], (normalize g4') as [g5'|]; cbn in V; try contradiction; [|exact I].
  destruct (st r); [now split|exact I].
Qed.
End Relate.

Lemma krel_mono {A B} (R R' : A -> B -> Prop) k k' : (forall a b, R a b -> R' a b) -> krel R k k' -> krel R' k k'.
Proof. intros H []; constructor; auto. Qed.

Lemma grel_mono {A B} (R R' : A -> B -> Prop) f g g' : (forall a b, R a b -> R' a b) -> grel R f g g' -> grel R' f g g'.
Proof.
  intros H [N E]. constructor; [|exact E]. clear E. induction N as [|p q l l' [X K] _ IH]; constructor; [|exact IH]. split; [exact X|].
  now apply (krel_mono R R').
Qed.
