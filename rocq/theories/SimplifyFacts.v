(** * SimplifyFacts: what simplify does to tree shaped circuits *)
From Coq Require Import List Arith Bool Lia Reals Permutation Sorting.Sorted.
From Verif Require Import Num Graph GraphFacts Spec SpecFacts Circuit EvalFacts Simplify.
Import ListNotations.

(** ** Lists *)
Lemma filter_all {A} (f : A -> bool) l : (forall x, In x l -> f x = true) -> filter f l = l.
Proof. induction l; simpl; intros H; auto. rewrite H by auto. f_equal. auto. Qed.

Lemma filter_nil {A} (f : A -> bool) l : (forall x, In x l -> f x = false) -> filter f l = [].
Proof. induction l; simpl; intros H; auto. rewrite H by auto. auto. Qed.

Lemma filter_comm {A} (f h : A -> bool) l : filter f (filter h l) = filter h (filter f l).
Proof.
  induction l; simpl; auto. destruct (f a) eqn:Ef, (h a) eqn:Eh; simpl; rewrite ?Ef, ?Eh, ?IHl; auto.
Qed.

Lemma filter_filter {A} (f h : A -> bool) l : filter f (filter h l) = filter (fun x => h x && f x) l.
Proof. induction l; simpl; auto. destruct (h a); simpl; rewrite ?IHl; auto. Qed.

Lemma NoDup_map_unique {A B} (f : A -> B) l a b : NoDup (map f l) -> In a l -> In b l -> f a = f b -> a = b.
Proof.
  induction l; simpl; [tauto|]. intros H Ha Hb E. inversion H; subst. destruct Ha as [<-|Ha], Hb as [<-|Hb]; auto.
  - exfalso. apply H2. rewrite E. now apply in_map.
  - exfalso. apply H2. rewrite <- E. now apply in_map.
Qed.

Lemma NoDup_map_NoDup {A B} (f : A -> B) l : NoDup (map f l) -> NoDup l.
Proof. apply NoDup_map_inv. Qed.

Lemma NoDup_map_filter {A B} (f : A -> B) p l : NoDup (map f l) -> NoDup (map f (filter p l)).
Proof.
  induction l; simpl; auto. intros H. inversion H; subst. destruct (p a); simpl; auto. constructor; auto.
  intros Hin. apply H2. apply in_map_iff in Hin. destruct Hin as [x [<- Hx]]. apply filter_In in Hx. now apply in_map.
Qed.

Lemma NoDup_app_intro {A} (l1 l2 : list A) : NoDup l1 -> NoDup l2 -> (forall x, In x l1 -> ~ In x l2) -> NoDup (l1 ++ l2).
Proof.
  induction 1; simpl; auto. intros H2 Hd. constructor.
  - rewrite in_app_iff. intros [Hx|Hx]; [tauto|]. apply (Hd x); [now left|auto].
  - apply IHNoDup; auto.
Qed.

Lemma Permutation_filter_cons {A} (f : A -> nat) l a : NoDup (map f l) -> In a l ->
  Permutation l (a :: filter (fun x => negb (f x =? f a)) l).
Proof.
  induction l as [|b l IH]; simpl; [tauto|]. intros H Hin. inversion H; subst. destruct Hin as [->|Hin].
  - rewrite Nat.eqb_refl. simpl. rewrite filter_all; auto.
    intros x Hx. apply negb_true_iff, Nat.eqb_neq. intros E. apply H2. rewrite <- E. now apply in_map.
  - destruct (f b =? f a) eqn:E; simpl.
    + apply Nat.eqb_eq in E. exfalso. apply H2. rewrite E. now apply in_map.
    + transitivity (b :: a :: filter (fun x => negb (f x =? f a)) l); [|constructor].
      constructor. now apply IH.
Qed.

(** ** A position for every unit of an order *)
Fixpoint pos_in (l : list id) (x : id) : nat :=
  match l with [] => 0 | y :: l' => if x =? y then 0 else S (pos_in l' x) end.

Lemma pos_in_app pre x post : ~ In x pre -> pos_in (pre ++ x :: post) x = length pre.
Proof.
  induction pre as [|a pre IH]; simpl; intros H; [now rewrite Nat.eqb_refl|].
  destruct (x =? a) eqn:E; [apply Nat.eqb_eq in E; subst; tauto|]. f_equal. tauto.
Qed.

Lemma pos_in_lt pre post x : In x pre -> pos_in (pre ++ post) x < length pre.
Proof.
  induction pre as [|a pre IH]; simpl; [tauto|]. intros H. destruct (x =? a) eqn:E; [lia|].
  destruct H as [->|H]; [rewrite Nat.eqb_refl in E; discriminate|]. apply IH in H. lia.
Qed.

Lemma pos_in_sorted l : NoDup l -> StronglySorted (fun a b => pos_in l a < pos_in l b) l.
Proof.
  intros H. assert (G : forall post pre, l = pre ++ post -> StronglySorted (fun a b => pos_in l a < pos_in l b) post).
  { induction post as [|a post IH]; intros pre E; constructor.
    - apply (IH (pre ++ [a])). rewrite E, <- app_assoc. reflexivity.
    - apply Forall_forall. intros y Hy. apply in_split in Hy. destruct Hy as [p1 [p2 ->]].
      rewrite E in H |- *. rewrite pos_in_app.
      + rewrite app_comm_cons, app_assoc, pos_in_app; [rewrite app_length; simpl; lia|].
        intros Hin. rewrite app_comm_cons, app_assoc in H. apply NoDup_remove_2 in H. apply H, in_or_app. now left.
      + apply NoDup_remove_2 in H. intros Hin. apply H, in_or_app. now left. }
  apply (G l []). reflexivity.
Qed.

Section Tree.
Context {D : Type}.
Implicit Types g : graph D.

Lemma pos_topo g order : NoDup order -> topo_up g order -> forall e, In e (g_edges g) -> In (e_src e) order ->
  pos_in order (e_dst e) < pos_in order (e_src e).
Proof.
  intros Hnd Ht e He Hin. apply in_split in Hin. destruct Hin as [pre [post E]].
  assert (Hp : In (e_dst e) pre) by (eapply Ht; eauto; apply subcircuits_In; eauto).
  assert (pos_in order (e_src e) = length pre) as ->.
  { rewrite E in Hnd |- *. apply pos_in_app. apply NoDup_remove_2 in Hnd. intros Hx. apply Hnd, in_or_app. now left. }
  rewrite E at 1. now apply pos_in_lt.
Qed.

(** ** Adding fresh edges *)
Lemma add_edge_fresh g u v lw : (forall e, In e (g_edges g) -> ~ (e_src e = u /\ e_dst e = v)) ->
  add_edge g u v lw = mkGraph (g_nodes g) (g_edges g ++ [mkEdge u v lw]).
Proof.
  intros H. unfold add_edge. destruct (existsb (is_edge u v) (g_edges g)) eqn:E; auto.
  apply existsb_exists in E. destruct E as [e [He Hb]]. unfold is_edge in Hb. apply andb_true_iff in Hb.
  rewrite !Nat.eqb_eq in Hb. exfalso. eapply H; eauto.
Qed.

Lemma add_edges_fresh new : forall g, NoDup (map e_dst new) ->
  (forall e e', In e new -> In e' (g_edges g) -> ~ (e_src e' = e_src e /\ e_dst e' = e_dst e)) ->
  fold_left (fun h e => add_edge h (e_src e) (e_dst e) (e_lw e)) new g = mkGraph (g_nodes g) (g_edges g ++ new).
Proof.
  induction new as [|a new IH]; simpl; intros g Hnd Hf.
  - destruct g. simpl. now rewrite app_nil_r.
  - inversion Hnd; subst. rewrite add_edge_fresh by (intros e He; apply Hf; auto).
    rewrite IH; simpl; auto.
    + rewrite <- app_assoc. simpl. destruct a; reflexivity.
    + intros e e' He He' [E1 E2]. apply in_app_iff in He'. destruct He' as [He'|[<-|[]]].
      * eapply (Hf e e'); eauto.
      * simpl in *. apply H1. rewrite E2. now apply in_map.
Qed.

Lemma fold_left_map {A B C} (f : A -> B -> A) (h : C -> B) l a :
  fold_left (fun x c => f x (h c)) l a = fold_left f (map h l) a.
Proof. revert a. induction l; simpl; auto. Qed.

(** ** Contraction: unit [s] disappears, its children hang below its parent *)
Definition keeps (s : id) (e : edge) : bool := negb (e_src e =? s) && negb (e_dst e =? s).

Lemma keeps_spec s e : keeps s e = true <-> e_src e <> s /\ e_dst e <> s.
Proof. unfold keeps. rewrite andb_true_iff, !negb_true_iff, !Nat.eqb_neq. tauto. Qed.

Definition contract g (s : id) (new : list edge) : graph D :=
  mkGraph (filter (fun p => negb (fst p =? s)) (g_nodes g)) (filter (keeps s) (g_edges g) ++ new).

Lemma drop_after_add g s new : (forall e, In e new -> e_src e <> s /\ e_dst e <> s) ->
  drop_node (mkGraph (g_nodes g) (g_edges g ++ new)) s = contract g s new.
Proof.
  intros H. unfold drop_node, contract. simpl. f_equal. rewrite filter_app. f_equal.
  apply filter_all. intros e He. now apply keeps_spec, H.
Qed.

Lemma drop_node_ids g s x : In x (node_ids (drop_node g s)) <-> In x (node_ids g) /\ x <> s.
Proof.
  unfold node_ids, drop_node. simpl. rewrite !in_map_iff. split.
  - intros [p [<- Hp]]. apply filter_In in Hp. rewrite negb_true_iff, Nat.eqb_neq in Hp. split; [exists p|]; tauto.
  - intros [[p [<- Hp]] Hn]. exists p. split; auto. apply filter_In. now rewrite negb_true_iff, Nat.eqb_neq.
Qed.

Lemma contract_ids g s new x : In x (node_ids (contract g s new)) <-> In x (node_ids g) /\ x <> s.
Proof. apply drop_node_ids. Qed.

Lemma drop_node_NoDup g s : NoDup (node_ids g) -> NoDup (node_ids (drop_node g s)).
Proof. apply NoDup_map_filter. Qed.

Lemma find_filter {A} (f h : A -> bool) l : (forall x, In x l -> f x = true -> h x = true) -> find f (filter h l) = find f l.
Proof.
  induction l as [|a l IH]; simpl; intros H; auto. destruct (f a) eqn:Ef.
  - rewrite H by auto. simpl. now rewrite Ef.
  - destruct (h a); simpl; rewrite ?Ef; apply IH; auto.
Qed.

Lemma drop_node_kind g s x : x <> s -> node_kind (drop_node g s) x = node_kind g x.
Proof.
  intros H. unfold node_kind, drop_node. simpl. rewrite find_filter; auto.
  intros p _ Hp. apply Nat.eqb_eq in Hp. rewrite negb_true_iff, Nat.eqb_neq. congruence.
Qed.

Lemma contract_kind g s new x : x <> s -> node_kind (contract g s new) x = node_kind g x.
Proof. apply (drop_node_kind g). Qed.

Lemma contract_kind_gone g s new : node_kind (contract g s new) s = None.
Proof.
  destruct (node_kind (contract g s new) s) eqn:E; auto. apply node_kind_ids in E. apply contract_ids in E. tauto.
Qed.

Lemma contract_In g s new e : In e (g_edges (contract g s new)) <->
  (In e (g_edges g) /\ e_src e <> s /\ e_dst e <> s) \/ In e new.
Proof. unfold contract. simpl. rewrite in_app_iff, filter_In, keeps_spec. tauto. Qed.

Lemma contract_out g s new x : x <> s ->
  out_edges (contract g s new) x =
  filter (fun e => negb (e_dst e =? s)) (out_edges g x) ++ filter (fun e => e_src e =? x) new.
Proof.
  intros H. unfold out_edges, contract. simpl. rewrite filter_app. f_equal. rewrite !filter_filter.
  apply filter_ext. intros e. unfold keeps. destruct (e_src e =? x) eqn:E.
  - apply Nat.eqb_eq in E. rewrite E. replace (x =? s) with false by (symmetry; now apply Nat.eqb_neq). simpl.
    now rewrite andb_true_r.
  - now rewrite andb_false_r.
Qed.

(** ** The invariant of trees *)
Record tinv (pos : id -> nat) g (r : id) : Prop := {
  ti_nodes : NoDup (node_ids g);
  ti_src : forall e, In e (g_edges g) -> In (e_src e) (node_ids g);
  ti_dst : forall e, In e (g_edges g) -> In (e_dst e) (node_ids g);
  ti_pos : forall e, In e (g_edges g) -> pos (e_dst e) < pos (e_src e);
  ti_nd : NoDup (map e_dst (g_edges g));
  ti_root : In r (node_ids g);
  ti_top : ~ In r (map e_dst (g_edges g));
  ti_all : forall u, In u (node_ids g) -> u <> r -> In u (map e_dst (g_edges g));
  ti_leaf : leaves_terminal g;
  ti_sum : forall u, node_kind g u = Some USum -> out_edges g u <> [];
  ti_w : forall e, In e (g_edges g) -> node_kind g (e_src e) = Some USum -> exists x, e_lw e = Some (Fin x)
}.

Lemma tinv_tree pos g r : tinv pos g r -> tree_shaped g r.
Proof.
  intros []. split; [|split; [|split; [|split; [|split]]]]; auto.
  - constructor; auto. clear - ti_nd0.
    induction (g_edges g) as [|e l IH]; simpl; constructor; inversion ti_nd0; subst; auto.
    intros Hin. apply H1. apply in_map_iff in Hin. destruct Hin as [e' [[= E1 E2] Hin]]. rewrite <- E2. now apply in_map.
  - exists pos. auto.
Qed.

Lemma tinv_out_nd pos g r u : tinv pos g r -> NoDup (map e_dst (out_edges g u)).
Proof. intros H. apply NoDup_map_filter, H. Qed.

Lemma tinv_parent pos g r e e' : tinv pos g r -> In e (g_edges g) -> In e' (g_edges g) -> e_dst e = e_dst e' -> e = e'.
Proof. intros H. apply NoDup_map_unique. apply H. Qed.

Lemma contract_tinv pos g r s e0 new : tinv pos g r -> In e0 (g_edges g) -> e_dst e0 = s ->
  (forall e, In e new -> e_src e = e_src e0) -> map e_dst new = map e_dst (out_edges g s) -> new <> [] ->
  (node_kind g (e_src e0) = Some USum -> forall e, In e new -> exists x, e_lw e = Some (Fin x)) ->
  tinv pos (contract g s new) r.
Proof.
  intros Ht He0 Hs Hsrc Hdst Hne Hw. pose proof Ht as [].
  assert (Hps : e_src e0 <> s) by (intros E; specialize (ti_pos0 _ He0); rewrite E, Hs in ti_pos0; lia).
  assert (Hnew : forall e, In e new -> exists e1, In e1 (g_edges g) /\ e_src e1 = s /\ e_dst e1 = e_dst e).
  { intros e He. apply (in_map e_dst) in He. rewrite Hdst in He. apply in_map_iff in He. destruct He as [e1 [E1 He1]].
    apply out_edges_In in He1. exists e1. tauto. }
  assert (Hds : forall e, In e new -> e_dst e <> s).
  { intros e He. destruct (Hnew e He) as [e1 [H1 [H2 H3]]]. specialize (ti_pos0 _ H1). rewrite H2, H3 in ti_pos0.
    intros E. rewrite E in ti_pos0. lia. }
  assert (Hrs : r <> s) by (intros ->; apply ti_top0; rewrite <- Hs; now apply in_map).
  constructor.
  - apply NoDup_map_filter, ti_nodes0.
  - intros e He. apply contract_ids. apply contract_In in He. destruct He as [[He [H1 H2]]|He].
    + split; auto.
    + rewrite (Hsrc e He). split; auto.
  - intros e He. apply contract_ids. apply contract_In in He. destruct He as [[He [H1 H2]]|He].
    + split; auto.
    + split; auto. destruct (Hnew e He) as [e1 [H1 [H2 H3]]]. rewrite <- H3. auto.
  - intros e He. apply contract_In in He. destruct He as [[He _]|He]; auto.
    rewrite (Hsrc e He). destruct (Hnew e He) as [e1 [H1 [H2 H3]]]. rewrite <- H3.
    pose proof (ti_pos0 _ H1). pose proof (ti_pos0 _ He0). rewrite Hs in *. rewrite H2 in *. lia.
  - unfold contract. simpl. rewrite map_app. apply NoDup_app_intro.
    + now apply NoDup_map_filter.
    + rewrite Hdst. now apply NoDup_map_filter.
    + intros x Hx Hn. rewrite Hdst in Hn. apply in_map_iff in Hx, Hn. destruct Hx as [e1 [<- H1]], Hn as [e2 [E2 H2]].
      apply filter_In in H1. destruct H1 as [H1 H1k]. apply keeps_spec in H1k. apply out_edges_In in H2.
      assert (e2 = e1) by (eapply tinv_parent; eauto; tauto). subst. tauto.
  - apply contract_ids. auto.
  - intros Hin. apply in_map_iff in Hin. destruct Hin as [e [He Hin]]. apply contract_In in Hin.
    destruct Hin as [[Hin _]|Hin].
    + apply ti_top0. rewrite <- He. now apply in_map.
    + destruct (Hnew e Hin) as [e1 [H1 [H2 H3]]]. apply ti_top0. rewrite <- He, <- H3. now apply in_map.
  - intros u Hu Hur. apply contract_ids in Hu. destruct Hu as [Hu Hus].
    specialize (ti_all0 u Hu Hur). apply in_map_iff in ti_all0. destruct ti_all0 as [e [He Hin]].
    destruct (Nat.eq_dec (e_src e) s) as [E|E].
    + assert (Hd : In u (map e_dst new)).
      { rewrite Hdst, <- He. apply in_map. apply out_edges_In. auto. }
      apply in_map_iff in Hd. destruct Hd as [e' [He' Hin']]. rewrite <- He'. apply in_map. apply contract_In. now right.
    + rewrite <- He. apply in_map. apply contract_In. left. repeat split; auto. now rewrite He.
  - intros e d He. apply contract_In in He. destruct He as [[He [H1 H2]]|He].
    + rewrite contract_kind by auto. auto.
    + rewrite (Hsrc e He), contract_kind by auto. auto.
  - intros u Hk. assert (Hus : u <> s) by (intros ->; rewrite contract_kind_gone in Hk; discriminate).
    rewrite contract_kind in Hk by auto. rewrite contract_out by auto.
    destruct (Nat.eq_dec u (e_src e0)) as [->|E].
    + destruct new as [|e new]; [congruence|]. simpl. rewrite (Hsrc e) by now left. rewrite Nat.eqb_refl.
      intros HH. apply app_eq_nil in HH. destruct HH. discriminate.
    + rewrite filter_all; [intros HH; apply app_eq_nil in HH; destruct HH as [HH _]; now apply (ti_sum0 u Hk)|].
      intros e He. apply out_edges_In in He. apply negb_true_iff, Nat.eqb_neq. intros Ed.
      assert (e = e0) by (eapply tinv_parent; eauto; [tauto|congruence]). subst e. destruct He; congruence.
  - intros e He Hk. apply contract_In in He. destruct He as [[He [H1 H2]]|He].
    + rewrite contract_kind in Hk by auto. auto.
    + rewrite (Hsrc e He), contract_kind in Hk by auto. auto.
Qed.

Lemma drop_root_tinv pos g r e : tinv pos g r -> out_edges g r = [e] -> tinv pos (drop_node g r) (e_dst e).
Proof.
  intros Ht Ho. pose proof Ht as [].
  assert (He : In e (g_edges g) /\ e_src e = r) by (apply out_edges_In; rewrite Ho; now left). destruct He as [He Hsr].
  assert (Hes : forall e', In e' (g_edges (drop_node g r)) <-> In e' (g_edges g) /\ e_src e' <> r).
  { intros e'. unfold drop_node. simpl. rewrite filter_In.
    change (negb (e_src e' =? r) && negb (e_dst e' =? r)) with (keeps r e'). rewrite keeps_spec. split; [tauto|].
    intros [H1 H2]. repeat split; auto. intros E. apply ti_top0. rewrite <- E. now apply in_map. }
  assert (Hnr : forall e', In e' (g_edges g) -> e_dst e' <> r).
  { intros e' H E. apply ti_top0. rewrite <- E. now apply in_map. }
  constructor.
  - now apply drop_node_NoDup.
  - intros e' H. apply Hes in H. apply drop_node_ids. split; [apply ti_src0|]; tauto.
  - intros e' H. apply Hes in H. apply drop_node_ids. split; [apply ti_dst0|apply Hnr]; tauto.
  - intros e' H. apply Hes in H. apply ti_pos0. tauto.
  - now apply NoDup_map_filter.
  - apply drop_node_ids. split; auto.
  - intros Hin. apply in_map_iff in Hin. destruct Hin as [e' [E Hin]]. apply Hes in Hin.
    assert (e' = e) by (eapply (tinv_parent pos g r); [exact Ht|apply Hin|exact He|exact E]). subst e'. tauto.
  - intros u Hu Hne. apply drop_node_ids in Hu. destruct Hu as [Hu Hur]. specialize (ti_all0 u Hu Hur).
    apply in_map_iff in ti_all0. destruct ti_all0 as [e' [E Hin]]. apply in_map_iff. exists e'. split; auto.
    apply Hes. split; auto. intros Es. assert (Hx : In e' (out_edges g r)) by now apply out_edges_In.
    rewrite Ho in Hx. destruct Hx as [<-|[]]. congruence.
  - intros e' d H. apply Hes in H. rewrite drop_node_kind by tauto. apply ti_leaf0. tauto.
  - intros u Hk. assert (Hus : u <> r).
    { intros ->. apply node_kind_ids, drop_node_ids in Hk. tauto. }
    rewrite drop_node_kind in Hk by auto. intros E. apply (ti_sum0 u Hk).
    destruct (out_edges g u) as [|e1 l] eqn:Eo; auto. exfalso.
    assert (H1 : In e1 (out_edges g u)) by (rewrite Eo; now left). apply out_edges_In in H1.
    assert (H2 : In e1 (out_edges (drop_node g r) u)) by (apply out_edges_In; rewrite Hes; split; [split|]; try tauto; destruct H1; congruence).
    rewrite E in H2. destruct H2.
  - intros e' H Hk. apply Hes in H. rewrite drop_node_kind in Hk by tauto. apply ti_w0; tauto.
Qed.

Lemma drop_root_out g r u : (forall e, In e (g_edges g) -> e_dst e <> r) -> u <> r ->
  out_edges (drop_node g r) u = out_edges g u.
Proof.
  intros H Hu. unfold out_edges, drop_node. simpl. rewrite filter_comm. apply filter_all.
  intros e He. apply filter_In in He. rewrite Nat.eqb_eq in He. apply keeps_spec. destruct He as [He1 He2].
  split; [congruence|auto].
Qed.

(** ** Local properties that survive contraction *)
Definition merged (u : id) (w : num) (e : edge) : edge :=
  mkEdge u (e_dst e) (option_map (fun x => nadd x w) (e_lw e)).

Definition local := id -> ukind D -> list edge -> Prop.

Record closed (L : local) : Prop := {
  cl_perm : forall u k l l', Permutation l l' -> L u k l -> L u k l';
  cl_collapse : forall s ks e p kp e0 rest, L s ks [e] -> (forall d, ks <> ULeaf d) -> e_dst e0 = s ->
    L p kp (e0 :: rest) -> L p kp (mkEdge p (e_dst e) (e_lw e0) :: rest);
  cl_merge : forall s es u e0 x rest, L s USum es -> (forall e, In e es -> exists y, e_lw e = Some (Fin y)) ->
    e_dst e0 = s -> e_lw e0 = Some (Fin x) ->
    L u USum (e0 :: rest) -> L u USum (map (merged u (Fin x)) es ++ rest)
}.

Definition holds (L : local) g : Prop := forall u k, node_kind g u = Some k -> L u k (out_edges g u).

(** What one simplification step does: units may disappear, local properties survive. *)
Record step_ok (pos : id -> nat) (u : id) g g' : Prop := {
  so_sub : forall x, In x (node_ids g') -> In x (node_ids g);
  so_kind : forall x, In x (node_ids g') -> node_kind g' x = node_kind g x;
  so_later : forall x, In x (node_ids g) -> pos u < pos x -> In x (node_ids g');
  so_holds : forall L, closed L -> holds L g -> holds L g'
}.

Lemma step_ok_refl pos u g : step_ok pos u g g.
Proof. constructor; auto. Qed.

Lemma step_ok_trans pos u g1 g2 g3 : step_ok pos u g1 g2 -> step_ok pos u g2 g3 -> step_ok pos u g1 g3.
Proof.
  intros [A1 A2 A3 A4] [B1 B2 B3 B4]. constructor; auto. intros x Hx. rewrite B2 by auto. auto.
Qed.

Lemma contract_out_perm pos g r s e0 new : tinv pos g r -> In e0 (g_edges g) -> e_dst e0 = s ->
  (forall e, In e new -> e_src e = e_src e0) -> e_src e0 <> s ->
  exists rest, Permutation (out_edges g (e_src e0)) (e0 :: rest) /\
    out_edges (contract g s new) (e_src e0) = rest ++ new.
Proof.
  intros Ht He Hs Hsrc Hne. exists (filter (fun e => negb (e_dst e =? e_dst e0)) (out_edges g (e_src e0))). split.
  - apply (Permutation_filter_cons e_dst); [eapply tinv_out_nd; eauto|]. now apply out_edges_In.
  - rewrite contract_out by auto. rewrite <- Hs. f_equal. apply filter_all. intros e H. rewrite (Hsrc e H). apply Nat.eqb_refl.
Qed.

Lemma contract_out_other pos g r s e0 new x : tinv pos g r -> In e0 (g_edges g) -> e_dst e0 = s ->
  (forall e, In e new -> e_src e = e_src e0) -> x <> s -> x <> e_src e0 ->
  out_edges (contract g s new) x = out_edges g x.
Proof.
  intros Ht He Hs Hsrc Hxs Hxp. rewrite contract_out by auto. rewrite filter_all, filter_nil, app_nil_r; auto.
  - intros e H. apply Nat.eqb_neq. rewrite (Hsrc e H). congruence.
  - intros e H. apply out_edges_In in H. apply negb_true_iff, Nat.eqb_neq. intros E.
    assert (e = e0) by (eapply tinv_parent; eauto; [tauto|congruence]). subst e. destruct H; congruence.
Qed.

Section Steps.
Variable pos : id -> nat.

Lemma fresh_contract g r s e0 new : tinv pos g r -> In e0 (g_edges g) -> e_dst e0 = s ->
  (forall e, In e new -> e_src e = e_src e0) -> map e_dst new = map e_dst (out_edges g s) ->
  remove_node (fold_left (fun h e => add_edge h (e_src e) (e_dst e) (e_lw e)) new g) s = Some (contract g s new).
Proof.
  intros Ht He0 Hs Hsrc Hdst. pose proof Ht as [].
  assert (Hps : e_src e0 <> s) by (intros E; specialize (ti_pos0 _ He0); rewrite E, Hs in ti_pos0; lia).
  assert (Hnew : forall e, In e new -> exists e1, In e1 (g_edges g) /\ e_src e1 = s /\ e_dst e1 = e_dst e).
  { intros e He. apply (in_map e_dst) in He. rewrite Hdst in He. apply in_map_iff in He. destruct He as [e1 [E1 He1]].
    apply out_edges_In in He1. exists e1. tauto. }
  rewrite add_edges_fresh.
  - unfold remove_node.
    replace (has_node (mkGraph (g_nodes g) (g_edges g ++ new)) s) with true.
    + rewrite drop_after_add; auto. intros e He. split; [rewrite (Hsrc e He); auto|].
      destruct (Hnew e He) as [e1 [H1 [H2 H3]]]. specialize (ti_pos0 _ H1). rewrite H2, H3 in ti_pos0.
      intros E. rewrite E in ti_pos0. lia.
    + symmetry. apply has_node_In. change (In s (node_ids g)). rewrite <- Hs. auto.
  - rewrite Hdst. now apply NoDup_map_filter.
  - intros e e' He He' [E1 E2]. destruct (Hnew e He) as [e1 [H1 [H2 H3]]].
    assert (e' = e1) by (eapply tinv_parent; eauto; congruence). subst e'. rewrite (Hsrc e He) in E1. congruence.
Qed.

(** A unit with exactly one child is replaced by it. *)
Lemma collapse_step g r u k e : tinv pos g r -> node_kind g u = Some k -> (forall d, k <> ULeaf d) ->
  out_edges g u = [e] ->
  exists g' r', remove_node (connect_incoming_edges_to g u (e_dst e)) u = Some g' /\ tinv pos g' r' /\
    step_ok pos u g g' /\ ((u <> r /\ r' = r) \/ (u = r /\ r' = e_dst e)) /\
    ~ In u (node_ids g') /\
    (forall x y, In y (subcircuits g' x) -> In y (subcircuits g x) \/ (In u (subcircuits g x) /\ y = e_dst e)).
Proof.
  intros Ht Hk Hnl Ho. pose proof Ht as [].
  assert (He : In e (g_edges g) /\ e_src e = u) by (apply out_edges_In; rewrite Ho; now left). destruct He as [He Hsu].
  destruct (Nat.eq_dec u r) as [->|Hur].
  - exists (drop_node g r), (e_dst e).
    assert (Hin : in_edges g r = []).
    { apply filter_nil. intros e' H. apply Nat.eqb_neq. intros E. apply ti_top0. rewrite <- E. now apply in_map. }
    unfold connect_incoming_edges_to. rewrite Hin. simpl.
    assert (Hnr : forall e', In e' (g_edges g) -> e_dst e' <> r).
    { intros e' H E. apply ti_top0. rewrite <- E. now apply in_map. }
    split; [|split; [|split; [|split; [|split]]]].
    + unfold remove_node. now rewrite (proj2 (has_node_In g r) ti_root0).
    + now apply drop_root_tinv.
    + constructor.
      * intros x Hx. apply drop_node_ids in Hx. tauto.
      * intros x Hx. apply drop_node_ids in Hx. apply drop_node_kind. tauto.
      * intros x Hx Hlt. apply drop_node_ids. split; auto. intros ->. lia.
      * intros L HL HH x kx Hx. assert (x <> r) by (intros ->; apply node_kind_ids, drop_node_ids in Hx; tauto).
        rewrite drop_node_kind in Hx by auto. rewrite drop_root_out; auto.
    + right. auto.
    + rewrite drop_node_ids. tauto.
    + intros x y Hy. left. apply subcircuits_In in Hy. destruct Hy as [e' [H1 [H2 H3]]]. apply subcircuits_In. exists e'.
      unfold drop_node in H1. simpl in H1. apply filter_In in H1. tauto.
  - assert (Hp : In u (map e_dst (g_edges g))) by (apply ti_all0; auto; eapply node_kind_ids; eauto).
    apply in_map_iff in Hp. destruct Hp as [e0 [Hd0 He0]].
    assert (Hin : in_edges g u = [e0]).
    { assert (H0 : In e0 (in_edges g u)) by now apply in_edges_In.
      assert (Hall : forall e', In e' (in_edges g u) -> e' = e0).
      { intros e' H'. apply in_edges_In in H'. eapply tinv_parent; eauto; [tauto|]. destruct H'; congruence. }
      assert (Hnd : NoDup (in_edges g u)) by (apply NoDup_filter; eapply NoDup_map_NoDup; eauto).
      destruct (in_edges g u) as [|a [|b l]]; [destruct H0| |].
      - f_equal. apply Hall. now left.
      - inversion Hnd as [|? ? Hna _]; subst. exfalso. apply Hna. rewrite (Hall a), (Hall b); simpl; auto. }
    set (new := [mkEdge (e_src e0) (e_dst e) (e_lw e0)]).
    assert (Hps : e_src e0 <> u) by (intros E; specialize (ti_pos0 _ He0); rewrite E, Hd0 in ti_pos0; lia).
    assert (Hsrc : forall e', In e' new -> e_src e' = e_src e0) by (intros e' [<-|[]]; reflexivity).
    assert (Hdst : map e_dst new = map e_dst (out_edges g u)) by (rewrite Ho; reflexivity).
    exists (contract g u new), r. split; [|split; [|split; [|split; [|split]]]].
    + unfold connect_incoming_edges_to. rewrite Hin. rewrite <- (fresh_contract g r u e0 new); auto.
    + eapply contract_tinv; eauto; [discriminate|]. intros Hks e' [<-|[]]. simpl. auto.
    + constructor.
      * intros x Hx. apply contract_ids in Hx. tauto.
      * intros x Hx. apply contract_ids in Hx. apply contract_kind. tauto.
      * intros x Hx Hlt. apply contract_ids. split; auto. intros ->. lia.
      * intros L HL HH x kx Hx.
        assert (Hxu : x <> u) by (intros ->; rewrite contract_kind_gone in Hx; discriminate).
        rewrite contract_kind in Hx by auto.
        destruct (Nat.eq_dec x (e_src e0)) as [->|Hxp].
        -- destruct (contract_out_perm pos g r u e0 new) as [rest [P1 P2]]; auto. rewrite P2.
           eapply cl_perm; [exact HL|apply Permutation_app_comm|]. simpl.
           eapply cl_collapse; eauto.
           ++ pose proof (HH u k Hk) as Hu. rewrite Ho in Hu. exact Hu.
           ++ eapply cl_perm; eauto.
        -- erewrite contract_out_other; eauto.
    + left. auto.
    + rewrite contract_ids. tauto.
    + intros x y Hy. apply subcircuits_In in Hy. destruct Hy as [e' [H1 [H2 H3]]]. apply contract_In in H1.
      destruct H1 as [[H1 _]|[<-|[]]].
      * left. apply subcircuits_In. eauto.
      * right. simpl in *. split; [|now symmetry]. apply subcircuits_In. eauto.
Qed.

(** A sum child of a sum is merged into it. *)
Lemma merge_step g r u s e0 x : tinv pos g r -> node_kind g u = Some USum -> In e0 (g_edges g) -> e_src e0 = u ->
  e_dst e0 = s -> e_lw e0 = Some (Fin x) -> node_kind g s = Some USum ->
  exists g', sum_merge u g (Fin x, s) = Some g' /\ tinv pos g' r /\ step_ok pos u g g' /\ ~ In s (node_ids g') /\
    (forall e, In e (g_edges g) -> e_src e = u -> e_dst e <> s -> In e (g_edges g')) /\
    (forall e, In e (g_edges g') -> In e (g_edges g) \/ (e_src e = u /\ In (e_dst e) (subcircuits g s))).
Proof.
  intros Ht Hku He0 Hsu Hds Hlw Hks. pose proof Ht as [].
  set (new := map (merged u (Fin x)) (out_edges g s)).
  assert (Hws : forall e, In e (out_edges g s) -> exists y, e_lw e = Some (Fin y)).
  { intros e He. apply out_edges_In in He. destruct He as [He Es]. apply ti_w0; auto. now rewrite Es. }
  assert (Hus : u <> s) by (intros E; pose proof (ti_pos0 _ He0) as Hq; rewrite Hsu, Hds, E in Hq; lia).
  assert (Hsrc : forall e, In e new -> e_src e = e_src e0).
  { intros e He. apply in_map_iff in He. destruct He as [e1 [<- _]]. now rewrite Hsu. }
  assert (Hdst : map e_dst new = map e_dst (out_edges g s)).
  { unfold new. rewrite map_map. reflexivity. }
  exists (contract g s new). split; [|split; [|split; [|split; [|split]]]].
  - unfold sum_merge. simpl. rewrite Hks. unfold log_weighted_subcircuits.
    replace (mapM _ (out_edges g s)) with
      (Some (map (fun e => (match e_lw e with Some w => w | None => NaN end, e_dst e)) (out_edges g s))).
    + rewrite <- (fresh_contract g r s e0 new); auto. f_equal.
      rewrite (fold_left_map (fun h p => add_edge h u (snd p) (Some (nadd (fst p) (Fin x))))
                 (fun p => p)), map_id.
      unfold new. clear - Hws. revert g Hws. intros g Hws.
      generalize g at 2 4. induction (out_edges g s) as [|e l IH]; simpl; intros h; auto.
      rewrite IH by (intros; apply Hws; now right). f_equal. destruct (Hws e) as [y ->]; [now left|]. reflexivity.
    + symmetry. apply mapM_Forall2. clear - Hws. induction (out_edges g s) as [|e l IH]; simpl; constructor.
      * destruct (Hws e) as [y ->]; [now left|]. reflexivity.
      * apply IH. intros e' H'. apply Hws. now right.
  - eapply contract_tinv; eauto.
    + intros E. apply (ti_sum0 s Hks). unfold new in E. destruct (out_edges g s); auto. discriminate.
    + intros _ e He. apply in_map_iff in He. destruct He as [e1 [<- He1]]. destruct (Hws e1 He1) as [y Hy].
      simpl. rewrite Hy. simpl. eauto.
  - constructor.
    + intros y Hy. apply contract_ids in Hy. tauto.
    + intros y Hy. apply contract_ids in Hy. apply contract_kind. tauto.
    + intros y Hy Hlt. apply contract_ids. split; auto. intros ->.
      specialize (ti_pos0 _ He0). rewrite Hsu, Hds in ti_pos0. lia.
    + intros L HL HH y ky Hy.
      assert (Hys : y <> s) by (intros ->; rewrite contract_kind_gone in Hy; discriminate).
      rewrite contract_kind in Hy by auto.
      destruct (Nat.eq_dec y (e_src e0)) as [->|Hyp].
      * destruct (contract_out_perm pos g r s e0 new) as [rest [P1 P2]]; auto. rewrite P2.
        eapply cl_perm; [exact HL|apply Permutation_app_comm|].
        rewrite Hsu in *. rewrite Hku in Hy. injection Hy as <-.
        eapply cl_merge; eauto. eapply cl_perm; eauto.
      * erewrite contract_out_other; eauto.
  - rewrite contract_ids. tauto.
  - intros e He Es Ed. apply contract_In. left. repeat split; auto. congruence.
  - intros e He. apply contract_In in He. destruct He as [[He _]|He]; auto. right.
    apply in_map_iff in He. destruct He as [e1 [<- He1]]. simpl. split; auto. now apply in_map.
Qed.

Lemma sum_merge_skip (g : graph D) u s x : node_kind g s <> Some USum -> sum_merge u g (Fin x, s) = Some g.
Proof. intros H. unfold sum_merge. simpl. destruct (node_kind g s) as [[]|]; auto. congruence. Qed.

Lemma merge_loop g r u l : tinv pos g r -> node_kind g u = Some USum -> NoDup (map snd l) ->
  Forall (fun p => exists e x, fst p = Fin x /\ In e (g_edges g) /\ e_src e = u /\ e_dst e = snd p /\ e_lw e = Some (Fin x)) l ->
  exists g', foldM (sum_merge u) l g = Some g' /\ tinv pos g' r /\ step_ok pos u g g' /\ In u (node_ids g').
Proof.
  revert g. induction l as [|[w s] l IH]; intros g Ht Hu Hnd Hl; cbn [foldM].
  - exists g. apply node_kind_ids in Hu. auto 8 using step_ok_refl.
  - inversion Hl as [|? ? Hp Hl']; subst. destruct Hp as [e [x [Ew [He [Es [Ed Elw]]]]]]. cbn [fst snd map] in *. subst w.
    inversion Hnd as [|? ? Hns Hnd']; subst.
    destruct (node_kind g (e_dst e)) as [[d| |]|] eqn:Ek.
    2:{ destruct (merge_step g r (e_src e) (e_dst e) e x) as [g1 [H1 [H2 [H3 [H4 [H5 H6]]]]]]; auto.
      rewrite H1.
      assert (Hu1 : In (e_src e) (node_ids g1)).
      { destruct (in_dec Nat.eq_dec (e_src e) (node_ids g1)); auto. exfalso.
        (* the unit itself still has its other edges or new ones *)
        apply n. clear n. pose proof (ti_sum _ _ _ Ht _ Ek) as Hne.
        destruct (out_edges g (e_dst e)) as [|e2 l2] eqn:E2; [congruence|].
        unfold sum_merge in H1. simpl in H1. rewrite Ek in H1.
        destruct (log_weighted_subcircuits g (e_dst e)); [|discriminate].
        unfold remove_node in H1. destruct (has_node _ _); [|discriminate]. injection H1 as <-.
        apply drop_node_ids. split.
        - assert (Hf : forall ll (h : graph D), node_ids (fold_left (fun h p => add_edge h (e_src e) (snd p) (Some (nadd (fst p) (Fin x)))) ll h) = node_ids h).
          { induction ll as [|a ll IHl]; simpl; intros h; auto. rewrite IHl. unfold add_edge. destruct (existsb _ _); reflexivity. }
          rewrite Hf. now apply node_kind_ids in Hu.
        - intros E. pose proof (ti_pos _ _ _ Ht e He). rewrite <- E in H. lia. }
      destruct (IH g1) as [g2 [G1 [G2 [G3 G4]]]]; auto.
      - rewrite (so_kind _ _ _ _ H3); auto.
      - rewrite Forall_forall in *. intros [w' s'] Hin. destruct (Hl' _ Hin) as [e' [x' [A1 [A2 [A3 [A4 A5]]]]]].
        exists e', x'. repeat split; auto. apply H5; auto. simpl in A4. rewrite A4. intros E. apply Hns.
        rewrite <- E. apply in_map_iff. exists (w', s'). auto.
      - exists g2. pose proof (step_ok_trans _ _ _ _ _ H3 G3). auto. }
    all: destruct (IH g Ht Hu Hnd' Hl') as [g2 [G1 [G2 [G3 G4]]]]; exists g2; rewrite sum_merge_skip by congruence; auto.
Qed.

Variable dead : D -> bool.

Lemma prod_merge_noop g s : prod_merge g s = g.
Proof.
  unfold prod_merge. destruct (node_kind g s) as [[d| |]|]; auto.
  assert (H : forall l, (forall v, In v l -> In v (subcircuits g s)) ->
    fold_left (fun (h : graph D) ss => add_edge h s ss None) l g = g); [|apply H; auto].
  induction l as [|v l IH]; simpl; intros Hl; auto.
  replace (add_edge g s v None) with g; [apply IH; auto|].
  assert (Hv : In v (subcircuits g s)) by auto. apply subcircuits_In in Hv. destruct Hv as [e [He [E1 E2]]].
  unfold add_edge. replace (existsb (is_edge s v) (g_edges g)) with true.
  - destruct g as [ns es]. simpl. f_equal. clear. symmetry. induction es as [|e l IH]; simpl; auto. rewrite IH. f_equal.
    destruct (is_edge s v e) eqn:E; auto. unfold is_edge in E. apply andb_true_iff in E. rewrite !Nat.eqb_eq in E.
    destruct e; simpl in *. destruct E; subst. reflexivity.
  - symmetry. apply existsb_exists. exists e. split; auto. unfold is_edge. rewrite E1, E2, !Nat.eqb_refl. reflexivity.
Qed.

Lemma prod_merges_noop cs g : fold_left prod_merge cs g = g.
Proof. induction cs; simpl; auto. now rewrite prod_merge_noop. Qed.

Definition alive g : Prop := forall u d, node_kind g u = Some (ULeaf d) -> dead d = false.

Lemma unit_simplify_step g r u : tinv pos g r -> alive g -> In u (node_ids g) ->
  exists g' r', unit_simplify dead g u = Some g' /\ tinv pos g' r' /\ step_ok pos u g g' /\
    (r' = r \/ (u = r /\ exists k e, node_kind g r = Some k /\ (forall d, k <> ULeaf d) /\ out_edges g r = [e] /\ r' = e_dst e)).
Proof.
  intros Ht Ha Hin. destruct (node_kind_complete g u Hin) as [k Hk]. unfold unit_simplify. rewrite Hk.
  assert (Hone : forall e, out_edges g u = [e] -> (forall d, k <> ULeaf d) ->
    exists g' r', remove_node (connect_incoming_edges_to g u (e_dst e)) u = Some g' /\ tinv pos g' r' /\ step_ok pos u g g' /\
    (r' = r \/ (u = r /\ exists k e, node_kind g r = Some k /\ (forall d, k <> ULeaf d) /\ out_edges g r = [e] /\ r' = e_dst e))).
  { intros e Ho Hnl. destruct (collapse_step g r u k e) as [g' [r' [H1 [H2 [H3 [H4 [H5 H6]]]]]]]; auto.
    exists g', r'. split; [auto|split; [auto|split; [auto|]]]. destruct H4 as [[_ ->]|[E ->]]; auto. right. subst u. split; auto.
    exists k, e. auto 8. }
  destruct k as [d| |].
  - unfold leaf_simplify. rewrite (Ha u d Hk). exists g, r. auto 8 using step_ok_refl.
  - unfold sum_simplify, subcircuits. destruct (out_edges g u) as [|e [|e' es]] eqn:Eo.
    + exfalso. now apply (ti_sum _ _ _ Ht u).
    + apply Hone; auto. discriminate.
    + simpl. unfold log_weighted_subcircuits.
      assert (Hws : forall e, In e (out_edges g u) -> exists y, e_lw e = Some (Fin y)).
      { intros f Hf. apply out_edges_In in Hf. destruct Hf as [Hf Es]. apply (ti_w _ _ _ Ht); auto. now rewrite Es. }
      replace (mapM _ (out_edges g u)) with
        (Some (map (fun e => (match e_lw e with Some w => w | None => NaN end, e_dst e)) (out_edges g u))).
      * destruct (merge_loop g r u (map (fun e => (match e_lw e with Some w => w | None => NaN end, e_dst e)) (out_edges g u)))
          as [g' [H1 [H2 [H3 H4]]]]; auto.
        -- rewrite map_map. simpl. eapply tinv_out_nd; eauto.
        -- apply Forall_map, Forall_forall. intros f Hf. destruct (Hws f Hf) as [y Hy]. exists f, y. simpl. rewrite Hy.
           apply out_edges_In in Hf. tauto.
        -- exists g', r. auto 8.
      * symmetry. apply mapM_Forall2. clear - Hws. induction (out_edges g u) as [|f l IH]; simpl; constructor.
        -- destruct (Hws f) as [y ->]; [now left|]. reflexivity.
        -- apply IH. intros e' H'. apply Hws. now right.
  - unfold prod_simplify, subcircuits. destruct (out_edges g u) as [|e [|e' es]] eqn:Eo.
    + simpl. exists g, r. auto 8 using step_ok_refl.
    + apply Hone; auto. discriminate.
    + cbn [map]. exists g, r. rewrite prod_merges_noop. auto 8 using step_ok_refl.
Qed.

Lemma simplify_loop rest : forall g r, tinv pos g r -> alive g ->
  StronglySorted (fun a b => pos a < pos b) rest ->
  (forall u, In u rest -> In u (node_ids g)) ->
  (forall u, In u (node_ids g) -> u <> r -> pos u < pos r) ->
  exists g' r', foldM (unit_simplify dead) rest g = Some g' /\ tinv pos g' r' /\
    (forall x, In x (node_ids g') -> In x (node_ids g)) /\
    (forall x, In x (node_ids g') -> node_kind g' x = node_kind g x) /\
    (forall L, closed L -> holds L g -> holds L g' /\ (r' = r \/ exists k e, L r k [e] /\ (forall d, k <> ULeaf d) /\ r' = e_dst e)).
Proof.
  induction rest as [|u rest IH]; intros g r Ht Ha Hs Hin Hr; simpl.
  - exists g, r. auto 10.
  - inversion Hs as [|? ? Hs' Hf]; subst. rewrite Forall_forall in Hf.
    destruct (unit_simplify_step g r u Ht Ha) as [g1 [r1 [H1 [H2 [H3 H4]]]]]; [apply Hin; now left|]. rewrite H1.
    destruct H3 as [S1 S2 S3 S4].
    destruct H4 as [->|[-> [k [e [K1 [K2 [K3 ->]]]]]]].
    + destruct (IH g1 r) as [g2 [r2 [G1 [G2 [G3 [G4 G5]]]]]]; auto.
      * intros v d Hv. apply (Ha v d). rewrite <- S2; auto. now apply node_kind_ids in Hv.
      * intros v Hv. apply S3; auto. apply Hin. now right.
      * exists g2, r2. split; [exact G1|split; [exact G2|split; [auto|split]]].
        -- intros x Hx. rewrite G4, S2; auto.
        -- intros L HL HH. apply G5; auto.
    + assert (rest = []) as ->.
      { destruct rest as [|v rest]; auto. exfalso. assert (pos r < pos v) by (apply Hf; now left).
        assert (Hv : In v (node_ids g)) by (apply Hin; right; now left).
        destruct (Nat.eq_dec v r) as [->|Hn]; [lia|]. specialize (Hr v Hv Hn). lia. }
      simpl. exists g1, (e_dst e). split; [auto|split; [auto|split; [auto|split; [auto|]]]].
      intros L HL HH. split; [auto|]. right. exists k, e. split; [|auto]. rewrite <- K3. auto.
Qed.
End Steps.

Lemma tree_tinv g r : tree_shaped g r -> leaves_terminal g ->
  (forall u, node_kind g u = Some USum -> out_edges g u <> []) ->
  (forall e, In e (g_edges g) -> node_kind g (e_src e) = Some USum -> exists x, e_lw e = Some (Fin x)) ->
  exists pos order, bottom_up g = Some order /\ tinv pos g r /\ StronglySorted (fun a b => pos a < pos b) order /\
    (forall u, In u order <-> In u (node_ids g)) /\
    (forall u, In u (node_ids g) -> u <> r -> pos u < pos r).
Proof.
  intros Htree Hlt Hsum Hw. pose proof Htree as [Hwf [Hac [Hr [Hnd [Hall Htop]]]]].
  pose proof (tree_root _ _ Htree) as Hroot.
  destruct (bottom_up_spec g r Hwf Hroot) as [ls [Hls [Hbu _]]].
  set (order := concat (rev ls)).
  assert (Ho : forall u, In u order <-> In u (node_ids g)).
  { intros u. unfold order. rewrite concat_rev_In, (layers_from_In g r ls Hls). split.
    - intros Hre. induction Hre; auto. now apply (wf_dst g Hwf).
    - now apply root_reaches_all. }
  assert (Hndo : NoDup order).
  { unfold order. apply (Permutation_NoDup (l := concat ls)); [|eapply layers_from_NoDup; eauto].
    clear. induction ls as [|l ls IH]; simpl; auto. rewrite concat_app. simpl. rewrite app_nil_r.
    rewrite IH. apply Permutation_app_comm. }
  assert (Htopo : topo_up g order) by (eapply graded_topo_up; eauto; now apply tree_graded).
  assert (Hpos : forall e, In e (g_edges g) -> pos_in order (e_dst e) < pos_in order (e_src e)).
  { intros e He. eapply pos_topo; eauto. apply Ho. now apply (wf_src g Hwf). }
  exists (pos_in order), order. split; [|split; [|split; [|split]]]; auto.
  - constructor; auto; apply Hwf.
  - now apply pos_in_sorted.
  - intros u Hu Hne. assert (Hre : reach g r u) by now apply root_reaches_all. clear Hu.
    assert (G : u = r \/ pos_in order u < pos_in order r).
    { clear Hne. induction Hre as [|v e Hv IHv He Hs]; auto. right. specialize (Hpos e He). rewrite Hs in Hpos.
      destruct IHv as [->|]; lia. }
    tauto.
Qed.

(** ** simplify on trees *)
Theorem simplify_tree (dead : D -> bool) g r : tree_shaped g r -> leaves_terminal g ->
  (forall u, node_kind g u = Some USum -> out_edges g u <> []) ->
  (forall e, In e (g_edges g) -> node_kind g (e_src e) = Some USum -> exists x, e_lw e = Some (Fin x)) ->
  alive dead g ->
  exists pos g' r', simplify dead g = Some g' /\ tinv pos g' r' /\
    (forall x, In x (node_ids g') -> In x (node_ids g)) /\
    (forall x, In x (node_ids g') -> node_kind g' x = node_kind g x) /\
    (forall L, closed L -> holds L g -> holds L g' /\ (r' = r \/ exists k e, L r k [e] /\ (forall d, k <> ULeaf d) /\ r' = e_dst e)).
Proof.
  intros Htree Hlt Hsum Hw Ha. destruct (tree_tinv g r Htree Hlt Hsum Hw) as [pos [order [Hb [Ht [Hs [Ho Hr]]]]]].
  unfold simplify. rewrite Hb. exists pos. apply simplify_loop; auto. intros u Hu. now apply Ho.
Qed.
End Tree.
