(** * HeapFacts: what the operations may write

    Proof file.  [step H c H' c']: going from heap [H] to [H'] while circuit [c] becomes [c'] writes only units of [c],
    distribution objects held by units of [c], and new objects; dictionary objects that exist are never written; and [c']
    consists of parts of [c] and new objects. *)
From Coq Require Import List Arith Bool Lia ZArith Reals.
From Verif Require Import Num Graph GraphFacts Spec SpecFacts Circuit Interval Dist DistFacts Simplify Conditional
  Rename Copy CopyFacts Heap.
Import ListNotations.
Local Open Scope nat_scope.

(** ** Lists *)

Lemma set_nth_length {A} (l : list A) : forall n a, List.length (set_nth l n a) = List.length l.
Proof. induction l as [|x l IH]; intros [|n] a; cbn; auto. Qed.

Lemma set_nth_same {A} (l : list A) : forall n a, n < List.length l -> nth_error (set_nth l n a) n = Some a.
Proof. induction l as [|x l IH]; intros [|n] a Hn; cbn in *; try lia; [reflexivity|]. apply IH. lia. Qed.

Lemma set_nth_other {A} (l : list A) : forall n m a, n <> m -> nth_error (set_nth l n a) m = nth_error l m.
Proof. induction l as [|x l IH]; intros [|n] [|m] a Hn; cbn; try reflexivity; try congruence. apply IH. congruence. Qed.

Lemma nth_error_nth {A} (l : list A) n a d : nth_error l n = Some a -> nth n l d = a.
Proof. revert n. induction l as [|x l IH]; intros [|n] H; cbn in *; try discriminate; [congruence|auto]. Qed.

(** ** Frames *)

Section Frame.
Variables (U A : nat -> Prop).

Record frame (H H' : heap) : Prop := {
  fr_units : forall u, u < List.length (h_units H) -> ~ U u -> nth_error (h_units H') u = nth_error (h_units H) u;
  fr_dists : forall a, a < List.length (h_dists H) -> ~ A a -> nth_error (h_dists H') a = nth_error (h_dists H) a;
  fr_dicts : forall p, p < List.length (h_dicts H) -> nth_error (h_dicts H') p = nth_error (h_dicts H) p;
  fr_ulen : List.length (h_units H) <= List.length (h_units H');
  fr_dlen : List.length (h_dists H) <= List.length (h_dists H');
  fr_plen : List.length (h_dicts H) <= List.length (h_dicts H')
}.

Lemma frame_refl H : frame H H.
Proof. constructor; auto. Qed.
End Frame.

Lemma frame_weaken (U A U' A' : nat -> Prop) H H' :
  (forall u, u < List.length (h_units H) -> U u -> U' u) -> (forall a, a < List.length (h_dists H) -> A a -> A' a) ->
  frame U A H H' -> frame U' A' H H'.
Proof. intros HU HA []. constructor; auto. Qed.

Lemma frame_trans (U A U' A' : nat -> Prop) H H1 H2 :
  (forall u, u < List.length (h_units H) -> U' u -> U u) -> (forall a, a < List.length (h_dists H) -> A' a -> A a) ->
  frame U A H H1 -> frame U' A' H1 H2 -> frame U A H H2.
Proof.
  intros HU HA [u1 d1 p1 lu1 ld1 lp1] [u2 d2 p2 lu2 ld2 lp2]. constructor; try lia.
  - intros u Hu N. rewrite u2; [now apply u1|lia|]. intros X. apply N. now apply HU.
  - intros a Ha N. rewrite d2; [now apply d1|lia|]. intros X. apply N. now apply HA.
  - intros p Hp. rewrite p2; [now apply p1|lia].
Qed.

(** Everything a heap object refers to exists. *)
Definition heap_ok (H : heap) : Prop :=
  (forall s v p a, nth_error (h_dists H) a = Some (ODisc s v p) -> p < List.length (h_dicts H)) /\
  (forall u a, nth_error (h_units H) u = Some (ULeaf a) -> a < List.length (h_dists H)).

(** The distribution objects held by the units of a circuit. *)
Definition holds (H : heap) (c : circ) (a : addr) : Prop :=
  exists u, In u (c_units c) /\ nth_error (h_units H) u = Some (ULeaf a).

Definition in_heap (H : heap) (c : circ) : Prop := forall u, In u (c_units c) -> u < List.length (h_units H).

Record step (H : heap) (c : circ) (H' : heap) (c' : circ) : Prop := {
  st_frame : frame (fun u => In u (c_units c)) (holds H c) H H';
  st_ok : heap_ok H';
  st_in : in_heap H' c';
  st_units : forall u, In u (c_units c') -> u < List.length (h_units H) -> In u (c_units c);
  st_dists : forall a, holds H' c' a -> a < List.length (h_dists H) -> holds H c a
}.

Lemma step_trans H c H1 c1 H2 c2 : step H c H1 c1 -> step H1 c1 H2 c2 -> step H c H2 c2.
Proof.
  intros [f1 o1 i1 u1 d1] [f2 o2 i2 u2 d2]. constructor; auto.
  - eapply frame_trans; [| |exact f1|exact f2]; auto.
  - intros u Hu L. apply u1; [|exact L]. apply u2; [exact Hu|]. pose proof (fr_ulen _ _ _ _ f1). lia.
  - intros a Ha L. apply d1; [|exact L]. apply d2; [exact Ha|]. pose proof (fr_dlen _ _ _ _ f1). lia.
Qed.

(** Two circuits share no unit and no distribution object (dictionaries may be shared). *)
Definition apart (H : heap) (c c' : circ) : Prop :=
  (forall u, In u (c_units c) -> ~ In u (c_units c')) /\ (forall a, holds H c a -> ~ holds H c' a).

(** ** A circuit does not notice a step of a circuit that is apart from it *)

Lemma read_dist_frame (U A : nat -> Prop) H H' a : heap_ok H -> frame U A H H' -> a < List.length (h_dists H) -> ~ A a ->
  read_dist H' a = read_dist H a.
Proof.
  intros [O _] F L N. unfold read_dist. rewrite (fr_dists _ _ _ _ F a L N).
  destruct (nth_error (h_dists H) a) as [[d|s v p]|] eqn:E; [reflexivity| |reflexivity].
  rewrite (fr_dicts _ _ _ _ F p (O s v p a E)). reflexivity.
Qed.

Lemma view_frame (U A : nat -> Prop) H H' c : heap_ok H -> frame U A H H' -> in_heap H c ->
  (forall u, In u (c_units c) -> ~ U u) -> (forall a, holds H c a -> ~ A a) -> view H' c = view H c.
Proof.
  intros O F I NU NA. unfold view. rewrite (mapM_ext_in (unit_view H') (unit_view H)); [reflexivity|].
  intros u Hu. unfold unit_view. rewrite (fr_units _ _ _ _ F u (I u Hu) (NU u Hu)).
  destruct (nth_error (h_units H) u) as [[a| |]|] eqn:E; try reflexivity.
  rewrite (read_dist_frame U A H H' a O F); [reflexivity|exact (proj2 O u a E)|].
  apply NA. now exists u.
Qed.

Lemma step_view H c' H' c'' c : heap_ok H -> in_heap H c -> apart H c c' -> step H c' H' c'' -> view H' c = view H c.
Proof. intros O I [AU AA] S. eapply view_frame; [exact O|exact (st_frame _ _ _ _ S)|exact I|exact AU|exact AA]. Qed.

Lemma step_apart H c' H' c'' c : heap_ok H -> in_heap H c -> apart H c c' -> step H c' H' c'' ->
  in_heap H' c /\ apart H' c c''.
Proof.
  intros O I [AU AA] S. pose proof (st_frame _ _ _ _ S) as F. split; [|split].
  - intros u Hu. pose proof (I u Hu). pose proof (fr_ulen _ _ _ _ F). lia.
  - intros u Hu Hu'. apply (AU u Hu). apply (st_units _ _ _ _ S); [exact Hu'|exact (I u Hu)].
  - intros a (u & Hu & E) Ha'. rewrite (fr_units _ _ _ _ F u (I u Hu) (AU u Hu)) in E.
    apply (AA a); [now exists u|]. apply (st_dists _ _ _ _ S); [exact Ha'|exact (proj2 O u a E)].
Qed.

(** ** Writing back *)

Lemma write_units_spec ns : forall H,
  h_dists (fold_left (fun h p => write_unit h (fst p) (snd p)) ns H) = h_dists H /\
  h_dicts (fold_left (fun h p => write_unit h (fst p) (snd p)) ns H) = h_dicts H /\
  List.length (h_units (fold_left (fun h p => write_unit h (fst p) (snd p)) ns H)) = List.length (h_units H) /\
  (forall u, ~ In u (map fst ns) ->
     nth_error (h_units (fold_left (fun h p => write_unit h (fst p) (snd p)) ns H)) u = nth_error (h_units H) u) /\
  (NoDup (map fst ns) -> forall u k, In (u, k) ns -> u < List.length (h_units H) ->
     nth_error (h_units (fold_left (fun h p => write_unit h (fst p) (snd p)) ns H)) u = Some k) /\
  (forall u k, nth_error (h_units (fold_left (fun h p => write_unit h (fst p) (snd p)) ns H)) u = Some k ->
     In (u, k) ns \/ nth_error (h_units H) u = Some k).
Proof.
  induction ns as [|[x k] ns IH]; intros H; cbn [fold_left].
  - do 4 (split; [auto|]). split; [intros _ u k []|auto].
  - destruct (IH (write_unit H x k)) as (E1 & E2 & E3 & E4 & E5 & E6). cbn [fst snd] in *.
    split; [exact E1|]. split; [exact E2|]. split; [rewrite E3; apply set_nth_length|]. split; [|split].
    + intros u N. rewrite E4; [|intros X; apply N; now right]. apply set_nth_other. intros ->. apply N. now left.
    + intros ND u k' [Hin|Hin] L; cbn [map fst] in ND; apply NoDup_cons_iff in ND; destruct ND as [N1 N2].
      * injection Hin as -> ->. rewrite E4 by exact N1. now apply set_nth_same.
      * apply E5; auto. cbn. now rewrite set_nth_length.
    + intros u k' Hk. apply E6 in Hk. destruct Hk as [Hk|Hk]; [left; now right|].
      cbn in Hk. destruct (Nat.eq_dec x u) as [->|N].
      * left. left. assert (L : u < List.length (h_units H)).
        { rewrite <- (set_nth_length (h_units H) u k). apply nth_error_Some. congruence. }
        rewrite set_nth_same in Hk by exact L. injection Hk as ->. reflexivity.
      * right. now rewrite set_nth_other in Hk.
Qed.

Lemma grow_units H n u : u < List.length (h_units H) -> nth_error (h_units (grow H n)) u = nth_error (h_units H) u.
Proof. intros L. cbn. now apply nth_error_app1. Qed.

Lemma grow_length H n : List.length (h_units (grow H n)) = max n (List.length (h_units H)).
Proof. cbn. rewrite app_length, repeat_length. lia. Qed.

Lemma grow_new H n u k : nth_error (h_units (grow H n)) u = Some k -> List.length (h_units H) <= u -> k = USum.
Proof.
  cbn. intros E L. rewrite nth_error_app2 in E by exact L. apply nth_error_In in E. now apply repeat_spec in E.
Qed.

Lemma repeat_In_USum H n u a : nth_error (h_units (grow H n)) u = Some (ULeaf a) -> nth_error (h_units H) u = Some (ULeaf a).
Proof.
  intros E. destruct (Nat.lt_ge_cases u (List.length (h_units H))) as [L|L]; [now rewrite grow_units in E|].
  pose proof (grow_new _ _ _ _ E L). discriminate.
Qed.

(** What an operation on the references of [c] has to satisfy so that writing its result back is a step. *)
Lemma commit_step H0 c H1 nx (g : graph addr) :
  heap_ok H0 -> in_heap H0 c -> frame (fun _ => False) (fun _ => False) H0 H1 -> heap_ok H1 ->
  h_units H1 = h_units H0 ->
  NoDup (node_ids g) ->
  (forall u, In u (node_ids g) -> In u (c_units c) \/ (List.length (h_units H0) <= u /\ u < nx)) ->
  (forall u a, In (u, ULeaf a) (g_nodes g) ->
     a < List.length (h_dists H1) /\ (a < List.length (h_dists H0) -> holds H0 c a)) ->
  step H0 c (fst (commit H1 nx g)) (snd (commit H1 nx g)) /\
  (forall u k, In (u, k) (g_nodes g) -> nth_error (h_units (fst (commit H1 nx g))) u = Some k) /\
  h_dists (fst (commit H1 nx g)) = h_dists H1 /\ h_dicts (fst (commit H1 nx g)) = h_dicts H1.
Proof.
  intros O0 I0 F O1 EU ND HU HA. unfold commit, write_units. cbn [fst snd].
  destruct (write_units_spec (g_nodes g) (grow H1 nx)) as (E1 & E2 & E3 & E4 & E5 & E6).
  set (H2 := fold_left (fun h p => write_unit h (fst p) (snd p)) (g_nodes g) (grow H1 nx)) in *.
  assert (GL : List.length (h_units H2) = max nx (List.length (h_units H0))) by (rewrite E3, grow_length, EU; reflexivity).
  assert (Hin : forall u k, In (u, k) (g_nodes g) -> nth_error (h_units H2) u = Some k).
  { intros u k X. apply E5; [exact ND|exact X|]. rewrite grow_length, EU.
    assert (Y : In u (node_ids g)) by (apply (in_map fst) in X; exact X).
    destruct (HU u Y) as [Z|Z]; [specialize (I0 u Z); lia|lia]. }
  split; [|split; [exact Hin|split; [exact E1|exact E2]]].
  constructor.
  - constructor.
    + intros u L N. rewrite E4.
      * rewrite grow_units by (rewrite EU; exact L). now rewrite EU.
      * intros X. destruct (HU u X) as [Z|Z]; [auto|lia].
    + intros a L _. rewrite E1. exact (fr_dists _ _ _ _ F a L (fun x => x)).
    + intros p L. rewrite E2. exact (fr_dicts _ _ _ _ F p L).
    + lia.
    + rewrite E1. exact (fr_dlen _ _ _ _ F).
    + rewrite E2. exact (fr_plen _ _ _ _ F).
  - split.
    + intros s v p a E. rewrite E2. rewrite E1 in E. exact (proj1 O1 s v p a E).
    + intros u a E. rewrite E1. apply E6 in E. destruct E as [E|E]; [exact (proj1 (HA u a E))|].
      apply repeat_In_USum in E. exact (proj2 O1 u a E).
  - intros u Hu. cbn [circ_of c_units] in Hu. rewrite GL. destruct (HU u Hu) as [Z|Z]; [specialize (I0 u Z); lia|lia].
  - intros u Hu L. cbn [circ_of c_units] in Hu. destruct (HU u Hu) as [Z|Z]; [exact Z|lia].
  - intros a (u & Hu & E) L. cbn [circ_of c_units] in Hu. unfold node_ids in Hu. apply in_map_iff in Hu.
    destruct Hu as ([x k] & X & Hu). cbn [fst] in X. subst x. rewrite (Hin u k Hu) in E. injection E as ->.
    exact (proj2 (HA u a Hu) L).
Qed.

(** ** Structural operations keep the units they keep *)

Section Struct.
Context {D : Type}.
Implicit Types g : graph D.

Definition nsub g g' : Prop := exists p, g_nodes g' = filter p (g_nodes g).

Lemma filter_true {A} (l : list A) : filter (fun _ => true) l = l.
Proof. induction l; cbn; congruence. Qed.

Lemma filter_filter {A} (p q : A -> bool) l : filter p (filter q l) = filter (fun x => q x && p x) l.
Proof. induction l as [|a l IH]; [reflexivity|]. cbn. destruct (q a); cbn; rewrite IH; reflexivity. Qed.

Lemma nsub_eq g g' : g_nodes g' = g_nodes g -> nsub g g'.
Proof. intros E. exists (fun _ => true). now rewrite filter_true. Qed.

Lemma nsub_refl g : nsub g g.
Proof. now apply nsub_eq. Qed.

Lemma nsub_trans g g1 g2 : nsub g g1 -> nsub g1 g2 -> nsub g g2.
Proof. intros [p E] [q E']. exists (fun x => p x && q x). rewrite E', E. apply filter_filter. Qed.

Lemma nsub_in g g' x : nsub g g' -> In x (g_nodes g') -> In x (g_nodes g).
Proof. intros [p E] H. rewrite E in H. now apply filter_In in H. Qed.

Lemma nsub_NoDup g g' : nsub g g' -> NoDup (node_ids g) -> NoDup (node_ids g').
Proof. intros [p E] H. unfold node_ids in *. rewrite E. now apply NoDup_map_filter. Qed.

Lemma add_edge_nodes g u v w : g_nodes (add_edge g u v w) = g_nodes g.
Proof. unfold add_edge. destruct (existsb _ _); reflexivity. Qed.

Lemma fold_nodes {A} (f : graph D -> A -> graph D) : (forall g a, g_nodes (f g a) = g_nodes g) ->
  forall l g, g_nodes (fold_left f l g) = g_nodes g.
Proof. intros Hf l. induction l as [|a l IH]; intros g; [reflexivity|]. cbn. now rewrite IH, Hf. Qed.

Lemma remove_edge_nodes g u v g' : remove_edge g u v = Some g' -> g_nodes g' = g_nodes g.
Proof. unfold remove_edge. destruct (existsb _ _); [|discriminate]. intros E. now injection E as <-. Qed.

Lemma drop_node_nsub g u : nsub g (drop_node g u).
Proof. eexists. reflexivity. Qed.

Lemma remove_node_nsub g u g' : remove_node g u = Some g' -> nsub g g'.
Proof. unfold remove_node. destruct (has_node g u); [|discriminate]. intros E. injection E as <-. apply drop_node_nsub. Qed.

Lemma foldM_nsub {A} (f : graph D -> A -> option (graph D)) : (forall g a g', f g a = Some g' -> nsub g g') ->
  forall l g g', foldM f l g = Some g' -> nsub g g'.
Proof.
  intros Hf l. induction l as [|a l IH]; intros g g' E; cbn in E; [injection E as <-; apply nsub_refl|].
  destruct (f g a) as [g1|] eqn:E1; [|discriminate]. eapply nsub_trans; [exact (Hf _ _ _ E1)|exact (IH _ _ E)].
Qed.

Lemma fold_nsub {A} (f : graph D -> A -> graph D) : (forall g a, nsub g (f g a)) ->
  forall l g, nsub g (fold_left f l g).
Proof.
  intros Hf l. induction l as [|a l IH]; intros g; [apply nsub_refl|]. cbn. eapply nsub_trans; [apply Hf|apply IH].
Qed.

Lemma remove_unreachable_nsub g r g' : remove_unreachable_nodes g r = Some g' -> nsub g g'.
Proof.
  unfold remove_unreachable_nodes. destruct (reachable_list g r); [|discriminate]. intros E. injection E as <-.
  apply fold_nsub. intros h a. apply drop_node_nsub.
Qed.

Lemma connect_nodes g u c : g_nodes (connect_incoming_edges_to g u c) = g_nodes g.
Proof. unfold connect_incoming_edges_to. apply fold_nodes. intros. apply add_edge_nodes. Qed.

Lemma sum_merge_nsub u g ws g' : sum_merge u g ws = Some g' -> nsub g g'.
Proof.
  unfold sum_merge. destruct ws as [w s]. intros E.
  destruct (if is_ninf w then remove_edge g u s else Some g) as [g1|] eqn:E1; [|discriminate].
  assert (N1 : nsub g g1).
  { destruct (is_ninf w); [apply nsub_eq; exact (remove_edge_nodes _ _ _ _ E1)|]. injection E1 as <-. apply nsub_refl. }
  destruct (node_kind g1 s) as [[d| |]|]; try (injection E as <-; exact N1).
  destruct (log_weighted_subcircuits g1 s) as [subs|]; [|discriminate].
  eapply nsub_trans; [exact N1|]. apply remove_node_nsub in E. eapply nsub_trans; [|exact E].
  apply nsub_eq, fold_nodes. intros. apply add_edge_nodes.
Qed.

Lemma unit_simplify_nsub dead g u g' : unit_simplify dead g u = Some g' -> nsub g g'.
Proof.
  unfold unit_simplify. destruct (node_kind g u) as [[d| |]|]; [| | |discriminate]; intros E.
  - unfold leaf_simplify in E. destruct (dead d); [exact (remove_node_nsub _ _ _ E)|]. injection E as <-. apply nsub_refl.
  - unfold sum_simplify in E. destruct (subcircuits g u) as [|c [|c' l]].
    + destruct (log_weighted_subcircuits g u); [|discriminate]. eapply foldM_nsub; [|exact E]. apply sum_merge_nsub.
    + eapply nsub_trans; [|exact (remove_node_nsub _ _ _ E)]. apply nsub_eq, connect_nodes.
    + destruct (log_weighted_subcircuits g u); [|discriminate]. eapply foldM_nsub; [|exact E]. apply sum_merge_nsub.
  - unfold prod_simplify in E. destruct (subcircuits g u) as [|c [|c' l]].
    + injection E as <-. apply nsub_refl.
    + eapply nsub_trans; [|exact (remove_node_nsub _ _ _ E)]. apply nsub_eq, connect_nodes.
    + assert (E' : fold_left prod_merge (c :: c' :: l) g = g') by (injection E; auto). rewrite <- E'.
      apply nsub_eq, (fold_nodes prod_merge). intros h s. unfold prod_merge.
      destruct (node_kind h s) as [[d| |]|]; try reflexivity. apply fold_nodes. intros. apply add_edge_nodes.
Qed.

Lemma simplify_nsub dead g g' : simplify dead g = Some g' -> nsub g g'.
Proof.
  unfold simplify. destruct (bottom_up g); [|discriminate]. intros E. eapply foldM_nsub; [|exact E].
  apply unit_simplify_nsub.
Qed.

Lemma sum_normalize_nodes g s g' : sum_normalize g s = Some g' -> g_nodes g' = g_nodes g.
Proof.
  unfold sum_normalize. intros E. repeat match type of E with
    | match ?x with _ => _ end = _ => destruct x; try discriminate
    end; injection E as <-; reflexivity.
Qed.

Lemma normalize_nodes g g' : normalize g = Some g' -> g_nodes g' = g_nodes g.
Proof.
  unfold normalize. generalize (sum_ids g). intros l. revert g. induction l as [|s l IH]; intros h E; cbn in E; [congruence|].
  destruct (sum_normalize h s) as [h1|] eqn:E1; [|discriminate]. rewrite (IH _ E). exact (sum_normalize_nodes _ _ _ E1).
Qed.

Lemma conditional_finish_nsub g1 st1 g5 lp : conditional_finish g1 st1 = Some (Some g5, lp) -> nsub g1 g5.
Proof.
  unfold conditional_finish. destruct (root g1) as [r|]; [|discriminate]. destruct (bottom_up g1) as [o|]; [|discriminate].
  destruct (foldM remove_node _ g1) as [g2|] eqn:E2; [|discriminate].
  destruct (negb (has_node g2 r)); [discriminate|].
  destruct (remove_unreachable_nodes g2 r) as [g3|] eqn:E3; [|discriminate].
  destruct (simplify (fun _ => false) g3) as [g4|] eqn:E4; [|discriminate].
  destruct (normalize g4) as [g5'|] eqn:E5; [|discriminate]. destruct (st1 r); [|discriminate].
  intros E. injection E as <- _.
  eapply nsub_trans; [eapply foldM_nsub; [apply remove_node_nsub|exact E2]|].
  eapply nsub_trans; [exact (remove_unreachable_nsub _ _ _ E3)|].
  eapply nsub_trans; [exact (simplify_nsub _ _ _ E4)|]. apply nsub_eq. exact (normalize_nodes _ _ E5).
Qed.

Lemma without_impossible_nsub g1 st1 g2 : without_impossible g1 st1 = Some g2 -> nsub g1 g2.
Proof.
  unfold without_impossible. destruct (bottom_up g1); [|discriminate]. intros E. eapply foldM_nsub; [|exact E].
  apply remove_node_nsub.
Qed.
End Struct.

(** ** Passes over references *)

Section Passes.
Variables (H0 : heap) (c : circ).
Hypothesis O0 : heap_ok H0.
Hypothesis I0 : in_heap H0 c.

(** The leaf references an operation may put into the circuit: new objects, or objects the circuit held before. *)
Definition addr_ok (H1 : heap) (a : addr) : Prop :=
  a < List.length (h_dists H1) /\ (a < List.length (h_dists H0) -> holds H0 c a).

Definition kind_ok (H1 : heap) (k : ukind addr) : Prop := match k with ULeaf a => addr_ok H1 a | _ => True end.

Record ginv (H1 : heap) (nx : nat) (g : graph addr) : Prop := {
  gi_nd : NoDup (node_ids g);
  gi_u : forall u, In u (node_ids g) -> In u (c_units c) \/ (List.length (h_units H0) <= u /\ u < nx);
  gi_k : forall u k, In (u, k) (g_nodes g) -> kind_ok H1 k
}.

(** Heaps that only got new distributions and dictionaries. *)
Record hext (H1 H2 : heap) : Prop := {
  hx_frame : frame (fun _ => False) (fun _ => False) H1 H2;
  hx_ok : heap_ok H1 -> heap_ok H2;
  hx_units : h_units H2 = h_units H1
}.

Lemma hext_refl H : hext H H.
Proof. constructor; auto using frame_refl. Qed.

Lemma hext_trans H1 H2 H3 : hext H1 H2 -> hext H2 H3 -> hext H1 H3.
Proof.
  intros [f1 o1 u1] [f2 o2 u2]. constructor; [|auto|congruence].
  eapply frame_trans; [| |exact f1|exact f2]; auto.
Qed.

Lemma alloc_dist_hext H d : (forall s v p, d = ODisc s v p -> p < List.length (h_dicts H)) -> hext H (fst (alloc_dist H d)).
Proof.
  intros Hd. constructor; [| |reflexivity].
  - constructor; cbn; auto; try (rewrite app_length; lia). intros a L _. now apply nth_error_app1.
  - intros [O1 O2]. split; cbn.
    + intros s v p a E. destruct (Nat.lt_ge_cases a (List.length (h_dists H))) as [L|L].
      * rewrite nth_error_app1 in E by exact L. eauto.
      * rewrite nth_error_app2 in E by exact L. destruct (a - List.length (h_dists H)) as [|[|n]]; cbn in E; try discriminate.
        injection E as E. exact (Hd s v p E).
    + intros u a E. rewrite app_length. specialize (O2 u a E). lia.
Qed.

Lemma alloc_dict_hext H p : hext H (fst (alloc_dict H p)).
Proof.
  constructor; [| |reflexivity].
  - constructor; cbn; auto; try (rewrite app_length; lia). intros a L. now apply nth_error_app1.
  - intros [O1 O2]. split; cbn; [|auto]. intros s v q a E. rewrite app_length. specialize (O1 s v q a E). lia.
Qed.

Lemma addr_ok_mono H1 H2 a : hext H1 H2 -> addr_ok H1 a -> addr_ok H2 a.
Proof. intros X [L A]. split; [|exact A]. pose proof (fr_dlen _ _ _ _ (hx_frame _ _ X)). lia. Qed.

Lemma kind_ok_mono H1 H2 k : hext H1 H2 -> kind_ok H1 k -> kind_ok H2 k.
Proof. intros X. destruct k; cbn; auto. now apply addr_ok_mono. Qed.

Lemma ginv_mono H1 H2 nx nx' g : hext H1 H2 -> nx <= nx' -> ginv H1 nx g -> ginv H2 nx' g.
Proof.
  intros X L [nd gu gk]. constructor; [exact nd| |].
  - intros u Hu. destruct (gu u Hu); [auto|right; lia].
  - intros u k Hk. eapply kind_ok_mono; eauto.
Qed.

Lemma ginv_nsub H1 nx g g' : nsub g g' -> ginv H1 nx g -> ginv H1 nx g'.
Proof.
  intros N [nd gu gk]. constructor.
  - exact (nsub_NoDup _ _ N nd).
  - intros u Hu. apply gu. unfold node_ids in *. apply in_map_iff in Hu. destruct Hu as (x & <- & Hx).
    apply in_map. exact (nsub_in _ _ _ N Hx).
  - intros u k Hk. apply (gk u). exact (nsub_in _ _ _ N Hk).
Qed.

Lemma set_kind_ids {D} (g : graph D) u k : node_ids (set_kind g u k) = node_ids g.
Proof.
  unfold node_ids, set_kind. cbn. rewrite map_map. apply map_ext. intros [x k']. cbn. destruct (Nat.eqb_spec x u); cbn; congruence.
Qed.

Lemma ginv_set_kind H1 nx g u k : kind_ok H1 k -> ginv H1 nx g -> ginv H1 nx (set_kind g u k).
Proof.
  intros K [nd gu gk]. constructor.
  - now rewrite set_kind_ids.
  - intros x. rewrite set_kind_ids. apply gu.
  - intros x k' Hx. cbn in Hx. apply in_map_iff in Hx. destruct Hx as ([y ky] & E & Hy). cbn in E.
    destruct (y =? u); injection E as <- <-; [exact K|exact (gk y ky Hy)].
Qed.

Lemma ginv_add_node H1 nx g k : List.length (h_units H0) <= nx -> kind_ok H1 k -> ginv H1 nx g -> ginv H1 (S nx) (add_node g nx k).
Proof.
  intros L K G. unfold add_node. destruct (has_node g nx) eqn:E; [eapply ginv_mono; [apply hext_refl| |exact G]; lia|].
  destruct G as [nd gu gk]. constructor.
  - unfold node_ids in *. cbn. rewrite map_app. cbn. apply NoDup_app_intro; [exact nd|constructor; [intros []|constructor]|].
    intros x Hx [<-|[]]. unfold has_node, node_ids in E. assert (T : existsb (Nat.eqb nx) (map fst (g_nodes g)) = true).
    { apply existsb_exists. exists nx. split; [exact Hx|apply Nat.eqb_refl]. } congruence.
  - intros u Hu. unfold node_ids in Hu. cbn in Hu. rewrite map_app in Hu. apply in_app_iff in Hu. cbn in Hu.
    destruct Hu as [Hu|[<-|[]]]; [destruct (gu u Hu); [auto|right; lia]|right; lia].
  - intros u k' Hk. cbn in Hk. apply in_app_iff in Hk. destruct Hk as [Hk|[Hk|[]]]; [exact (gk u k' Hk)|].
    injection Hk as <- <-. exact K.
Qed.

Lemma ginv_nodes H1 nx g g' : g_nodes g' = g_nodes g -> ginv H1 nx g -> ginv H1 nx g'.
Proof. intros E. apply ginv_nsub. now apply nsub_eq. Qed.

(** What conditioning a leaf's distribution yields: new objects only. *)
Definition lres_new (H1 H2 : heap) (r : lres addr) : Prop :=
  match r with
  | LDead => True
  | LOne a _ => List.length (h_dists H1) <= a /\ a < List.length (h_dists H2)
  | LMany l _ => Forall (fun wa => List.length (h_dists H1) <= snd wa /\ snd wa < List.length (h_dists H2)) l
  end.

Lemma h_alloc_parts_spec (l : list (num * dist)) : forall H acc,
  hext H (fst (fold_left h_alloc_part l (H, acc))) /\ exists new, snd (fold_left h_alloc_part l (H, acc)) = acc ++ new /\
    Forall (fun wa => List.length (h_dists H) <= snd wa /\
                      snd wa < List.length (h_dists (fst (fold_left h_alloc_part l (H, acc))))) new.
Proof.
  induction l as [|[w d] l IH]; intros H acc; cbn [fold_left].
  - cbn. split; [apply hext_refl|]. exists []. split; [now rewrite app_nil_r|constructor].
  - unfold h_alloc_part at 2 4 6. cbn [fst snd].
    set (H1 := fst (alloc_dist H (OCont d))).
    assert (X : hext H H1) by (apply (alloc_dist_hext H (OCont d)); discriminate).
    destruct (IH H1 (acc ++ [(w, snd (alloc_dist H (OCont d)))])) as (X2 & new & E & F).
    split; [exact (hext_trans _ _ _ X X2)|].
    exists ((w, snd (alloc_dist H (OCont d))) :: new). split; [rewrite E, <- app_assoc; reflexivity|].
    assert (L1 : List.length (h_dists H1) = S (List.length (h_dists H))) by (cbn; rewrite app_length; cbn; lia).
    pose proof (fr_dlen _ _ _ _ (hx_frame _ _ X2)) as L2.
    constructor; [cbn [snd alloc_dist]; split; [lia|]; eapply Nat.lt_le_trans; [|exact L2]; lia|].
    eapply Forall_impl; [|exact F]. cbv beta. intros wa [A B]. split; [lia|exact B].
Qed.

Lemma dnormalize_hext H s v q H3 :
  let H1 := fst (alloc_dict H q) in
  let H2 := fst (alloc_dist H1 (ODisc s v (List.length (h_dicts H)))) in
  h_dist_normalize H2 (List.length (h_dists H)) = Some H3 ->
  hext H H3 /\ List.length (h_dists H3) = S (List.length (h_dists H)).
Proof.
  cbv zeta. intros E. unfold h_dist_normalize in E. cbn [alloc_dist alloc_dict fst snd h_dists h_dicts h_units] in E.
  rewrite nth_error_app2 in E by lia. rewrite Nat.sub_diag in E. cbn [nth_error] in E.
  rewrite nth_error_app2 in E by lia. rewrite Nat.sub_diag in E. cbn [nth_error] in E. injection E as <-.
  assert (L : List.length (h_dists (write_dict (mkHeap (h_units H) (h_dists H ++ [ODisc s v (List.length (h_dicts H))])
                (h_dicts H ++ [q])) (List.length (h_dicts H)) (dnormalize q))) = S (List.length (h_dists H))).
  { cbn. rewrite app_length. cbn. lia. }
  split; [|exact L]. constructor; [| |reflexivity].
  - constructor; cbn; auto; try (rewrite ?set_nth_length, app_length; lia).
    + intros a La _. now apply nth_error_app1.
    + intros p Lp. rewrite set_nth_other by lia. now apply nth_error_app1.
  - intros [O1 O2]. split; cbn.
    + intros s' v' p a E. rewrite set_nth_length, app_length. cbn.
      destruct (Nat.lt_ge_cases a (List.length (h_dists H))) as [La|La].
      * rewrite nth_error_app1 in E by exact La. specialize (O1 _ _ _ _ E). lia.
      * rewrite nth_error_app2 in E by exact La. destruct (a - List.length (h_dists H)) as [|[|n]]; cbn in E; try discriminate.
        injection E as <- <- <-. lia.
    + intros u a E. rewrite app_length. specialize (O2 u a E). lia.
Qed.

Lemma h_finish_discrete_spec H s v q H1 r : h_finish_discrete H s v q = Some (H1, r) -> hext H H1 /\ lres_new H H1 r.
Proof.
  unfold h_finish_discrete. destruct (Reqb (Rsum (vals q)) 0).
  - intros E. injection E as <- <-. split; [apply hext_refl|exact I].
  - cbn [alloc_dict]. pose proof (dnormalize_hext H s v q) as X. cbv zeta in X. cbn [alloc_dict fst alloc_dist h_dists h_units h_dicts] in *.
    destruct (h_dist_normalize _ _) as [H3|]; [|discriminate]. intros E. injection E as <- <-.
    destruct (X H3 eq_refl) as [X1 X2]. split; [exact X1|]. cbn. lia.
Qed.

Lemma h_leaf_cond_spec H A a H1 r : h_leaf_cond H A a = Some (H1, r) -> hext H H1 /\ lres_new H H1 r.
Proof.
  unfold h_leaf_cond. destruct (nth_error (h_dists H) a) as [[d|s v p]|]; [| |discriminate].
  - destruct (leaf_cond d A) as [[|d' lp|l lp]|]; [| | |discriminate].
    + intros E. injection E as <- <-. split; [apply hext_refl|exact I].
    + cbn [alloc_dist]. intros E. injection E as <- <-. split; [apply (alloc_dist_hext H (OCont d')); discriminate|].
      cbn. rewrite app_length. cbn. lia.
    + unfold h_alloc_parts. destruct (h_alloc_parts_spec l H []) as (X & new & E' & F).
      destruct (fold_left _ l (H, [])) as [H1' l']. cbn [fst snd app] in *. subst l'.
      intros E. injection E as <- <-. split; [exact X|exact F].
  - destruct (nth_error (h_dicts H) p) as [q|]; [|discriminate].
    destruct s, A as [A|l]; try discriminate; apply h_finish_discrete_spec.
Qed.

Definition pinv (x : heap * (graph addr * store num * nat)) : Prop :=
  hext H0 (fst x) /\ List.length (h_units H0) <= snd (snd x) /\ ginv (fst x) (snd (snd x)) (fst (fst (snd x))).

Lemma new_addr_ok H1 H2 a : hext H0 H1 -> hext H1 H2 -> List.length (h_dists H1) <= a -> a < List.length (h_dists H2) -> addr_ok H2 a.
Proof.
  intros X1 X2 L1 L2. split; [exact L2|]. intros L. pose proof (fr_dlen _ _ _ _ (hx_frame _ _ X1)). lia.
Qed.

Lemma add_parts_ginv H1 s (l : list (num * addr)) : Forall (fun wa => addr_ok H1 (snd wa)) l -> forall g st nx g' st' nx',
  List.length (h_units H0) <= nx -> ginv H1 nx g ->
  fold_left (add_part s) l (g, st, nx) = (g', st', nx') -> nx <= nx' /\ ginv H1 nx' g'.
Proof.
  intros F. induction F as [|[w a] l Ha _ IH]; intros g st nx g' st' nx' L G E; cbn [fold_left] in E.
  - injection E as <- _ <-. auto.
  - cbn [add_part fst snd] in E. destruct (IH _ _ _ _ _ _ (Nat.le_trans _ _ _ L (Nat.le_succ_diag_r nx)) 
      (ginv_nodes _ _ _ _ (add_edge_nodes _ s nx (Some w)) (ginv_add_node H1 nx g (ULeaf a) L Ha G)) E) as [L' G'].
    split; [lia|exact G'].
Qed.

Lemma h_unit_conditional_inv e x u y : h_unit_conditional e x u = Some y -> pinv x -> pinv y.
Proof.
  destruct x as [H1 [[g st] nx]]. unfold h_unit_conditional, pinv. cbn [fst snd]. intros E (X & L & G).
  destruct (node_kind g u) as [[a| |]|] eqn:K.
  - destruct (read_dist H1 a) as [d|]; [|discriminate].
    destruct (h_leaf_cond H1 (e (dvar d)) a) as [[H2 r]|] eqn:EC; [|discriminate].
    destruct (h_leaf_cond_spec _ _ _ _ _ EC) as [X2 R].
    destruct (leaf_conditional (fun _ => Some r) (g, st, nx) u a) as [[[g' st'] nx']|] eqn:EL; [|discriminate].
    injection E as <-. cbn [fst snd]. split; [exact (hext_trans _ _ _ X X2)|].
    pose proof (ginv_mono _ _ _ _ _ X2 (Nat.le_refl nx) G) as G2.
    unfold leaf_conditional in EL. destruct r as [|a' lp|l lp].
    + injection EL as <- <- <-. auto.
    + injection EL as <- <- <-. split; [exact L|]. apply ginv_set_kind; [|exact G2].
      destruct R as [R1 R2]. exact (new_addr_ok _ _ _ X X2 R1 R2).
    + destruct (fold_left (add_part nx) l (add_node g nx USum, clear st nx, S nx)) as [[g1 st1] nx1] eqn:EF.
      destruct (remove_node (connect_incoming_edges_to g1 u nx) u) as [g2|] eqn:ER; [|discriminate].
      destruct (sum_normalize g2 nx) as [g3|] eqn:EN; [|discriminate]. injection EL as <- <- <-.
      assert (F : Forall (fun wa => addr_ok H2 (snd wa)) l).
      { eapply Forall_impl; [|exact R]. cbv beta. intros wa [A B]. exact (new_addr_ok _ _ _ X X2 A B). }
      destruct (add_parts_ginv H2 nx l F _ _ _ _ _ _ (Nat.le_trans _ _ _ L (Nat.le_succ_diag_r nx))
        (ginv_add_node H2 nx g USum L I G2) EF) as [L' G'].
      split; [lia|]. apply (ginv_nodes _ _ g2); [exact (sum_normalize_nodes _ _ _ EN)|].
      apply (ginv_nsub _ _ _ _ (remove_node_nsub _ _ _ ER)). apply (ginv_nodes _ _ g1); [apply connect_nodes|exact G'].
  - destruct (unit_conditional _ _ _) as [[[g' st'] nx']|] eqn:EU; [|discriminate]. injection E as <-.
    unfold unit_conditional in EU. cbn [fst snd] in *. rewrite K in EU.
    destruct (eval_unit _ _ _ _ _ _); [|discriminate]. injection EU as <- <- <-. auto.
  - destruct (unit_conditional _ _ _) as [[[g' st'] nx']|] eqn:EU; [|discriminate]. injection E as <-.
    unfold unit_conditional in EU. cbn [fst snd] in *. rewrite K in EU.
    destruct (eval_unit _ _ _ _ _ _); [|discriminate]. injection EU as <- <- <-. auto.
  - unfold unit_conditional in E. cbn [fst snd] in E. rewrite K in E. unfold eval_unit in E. rewrite K in E. discriminate.
Qed.

Lemma foldM_inv {S A} (P : S -> Prop) (f : S -> A -> option S) :
  (forall x a y, f x a = Some y -> P x -> P y) -> forall l x y, foldM f l x = Some y -> P x -> P y.
Proof.
  intros Hf l. induction l as [|a l IH]; intros x y E Px; cbn in E; [congruence|].
  destruct (f x a) as [z|] eqn:Ez; [|discriminate]. exact (IH _ _ E (Hf _ _ _ Ez Px)).
Qed.

Lemma ref_graph_ids : node_ids (ref_graph H0 c) = c_units c.
Proof. unfold node_ids, ref_graph. cbn. rewrite map_map. cbn. apply map_id. Qed.

Hypothesis NDc : NoDup (c_units c).

Lemma ref_graph_inv : ginv H0 (List.length (h_units H0)) (ref_graph H0 c).
Proof.
  constructor.
  - rewrite ref_graph_ids. exact NDc.
  - intros u. rewrite ref_graph_ids. auto.
  - intros u k Hk. cbn in Hk. apply in_map_iff in Hk. destruct Hk as (x & E & Hx). injection E as -> <-.
    pose proof (I0 u Hx) as L. destruct (nth_error (h_units H0) u) as [k|] eqn:En; [|apply nth_error_None in En; lia].
    rewrite (nth_error_nth _ _ _ _ En). destruct k as [a| |]; cbn; auto. split; [exact (proj2 O0 u a En)|].
    intros _. exists u. auto.
Qed.

Lemma commit_step' H1 nx g : hext H0 H1 -> ginv H1 nx g ->
  step H0 c (fst (commit H1 nx g)) (snd (commit H1 nx g)) /\ NoDup (c_units (snd (commit H1 nx g))) /\
  (forall u k, In (u, k) (g_nodes g) -> nth_error (h_units (fst (commit H1 nx g))) u = Some k) /\
  h_dists (fst (commit H1 nx g)) = h_dists H1 /\ h_dicts (fst (commit H1 nx g)) = h_dicts H1.
Proof.
  intros [F O U] [nd gu gk].
  destruct (commit_step H0 c H1 nx g O0 I0 F (O O0) U nd gu) as (S & R).
  - intros u a Ha. exact (gk u _ Ha).
  - split; [exact S|]. split; [exact nd|exact R].
Qed.
End Passes.
