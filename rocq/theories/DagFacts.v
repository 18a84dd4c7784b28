(** * DagFacts: what simplify does to rooted circuits with shared units *)
From Coq Require Import List Arith Bool Lia Reals Permutation Sorting.Sorted.
From Verif Require Import Num Graph GraphFacts Spec SpecFacts Circuit EvalFacts Simplify SimplifyFacts.
Import ListNotations.

Section Dag.
Context {D : Type}.
Implicit Types g : graph D.

Definition link g (a b : id) : Prop := exists e, In e (g_edges g) /\ e_src e = a /\ e_dst e = b.

Lemma link_sub g a b : link g a b <-> In b (subcircuits g a).
Proof. rewrite subcircuits_In. reflexivity. Qed.

Lemma is_edge_spec u v e : is_edge u v e = true <-> e_src e = u /\ e_dst e = v.
Proof. unfold is_edge. rewrite andb_true_iff, !Nat.eqb_eq. tauto. Qed.

Lemma add_edge_nodes g u v lw : g_nodes (add_edge g u v lw) = g_nodes g.
Proof. unfold add_edge. destruct (existsb _ _); reflexivity. Qed.

Lemma add_edge_In g u v lw e : In e (g_edges (add_edge g u v lw)) ->
  In e (g_edges g) \/ (e_src e = u /\ e_dst e = v /\
    (e_lw e = lw \/ (lw = None /\ exists e0, In e0 (g_edges g) /\ e_src e0 = u /\ e_dst e0 = v /\ e_lw e = e_lw e0))).
Proof.
  unfold add_edge. destruct (existsb (is_edge u v) (g_edges g)); simpl.
  - intros H. apply in_map_iff in H. destruct H as [e0 [E H]]. destruct (is_edge u v e0) eqn:Eb; subst; auto.
    apply is_edge_spec in Eb. right. simpl. split; [auto|split; [auto|]]. destruct lw; [now left|]. right. split; auto. exists e0. tauto.
  - intros H. apply in_app_iff in H. destruct H as [H|[<-|[]]]; simpl; auto 6.
Qed.

Lemma add_edge_link g u v lw a b : link (add_edge g u v lw) a b <-> link g a b \/ (a = u /\ b = v).
Proof.
  split.
  - intros [e [He [<- <-]]]. apply add_edge_In in He. destruct He as [He|[H1 [H2 _]]]; auto. left. exists e. auto.
  - unfold link, add_edge. destruct (existsb (is_edge u v) (g_edges g)) eqn:Eb; simpl.
    + assert (Hg : forall a b, (exists e, In e (g_edges g) /\ e_src e = a /\ e_dst e = b) ->
        exists e, In e (map (fun e => if is_edge u v e then mkEdge u v (match lw with Some w => Some w | None => e_lw e end) else e) (g_edges g)) /\
          e_src e = a /\ e_dst e = b).
      { intros a' b' [e [He [<- <-]]]. eexists. split; [apply in_map_iff; exists e; split; [reflexivity|exact He]|].
        destruct (is_edge u v e) eqn:E; auto. apply is_edge_spec in E. simpl. intuition. }
      intros [H|[-> ->]]; auto. apply Hg. apply existsb_exists in Eb. destruct Eb as [e [He Eb]]. apply is_edge_spec in Eb.
      exists e. auto.
    + intros [[e [He H]]|[-> ->]].
      * exists e. split; auto. apply in_or_app. auto.
      * eexists. split; [apply in_or_app; right; left; reflexivity|]. auto.
Qed.

Definition ekeys g := map (fun e => (e_src e, e_dst e)) (g_edges g).

Lemma add_edge_NoDup g u v lw : NoDup (ekeys g) -> NoDup (ekeys (add_edge g u v lw)).
Proof.
  unfold ekeys, add_edge. destruct (existsb (is_edge u v) (g_edges g)) eqn:Eb; simpl; intros H.
  - rewrite map_map. erewrite map_ext; [exact H|]. intros e. destruct (is_edge u v e) eqn:E; auto.
    apply is_edge_spec in E. simpl. destruct E as [-> ->]. reflexivity.
  - rewrite map_app. apply NoDup_app_intro; auto; [repeat constructor; auto|].
    intros p Hp [<-|[]]. apply in_map_iff in Hp. destruct Hp as [e [E He]]. simpl in E. injection E as E1 E2.
    assert (Hx : existsb (is_edge u v) (g_edges g) = true) by (apply existsb_exists; exists e; split; auto; now apply is_edge_spec).
    congruence.
Qed.

Lemma drop_edges g s e : In e (g_edges (drop_node g s)) <-> In e (g_edges g) /\ e_src e <> s /\ e_dst e <> s.
Proof. unfold drop_node. simpl. rewrite filter_In. change (negb (e_src e =? s) && negb (e_dst e =? s)) with (keeps s e). now rewrite keeps_spec. Qed.

Lemma drop_link g s a b : link (drop_node g s) a b <-> link g a b /\ a <> s /\ b <> s.
Proof.
  split.
  - intros [e [He [<- <-]]]. apply drop_edges in He. split; [exists e|]; tauto.
  - intros [[e [He [<- <-]]] H]. exists e. rewrite drop_edges. tauto.
Qed.

Lemma drop_NoDup g s : NoDup (ekeys g) -> NoDup (ekeys (drop_node g s)).
Proof. apply NoDup_map_filter. Qed.

(** Adding a list of edges. *)
Definition add_all (l : list edge) g : graph D := fold_left (fun h e => add_edge h (e_src e) (e_dst e) (e_lw e)) l g.

Lemma add_all_nodes l : forall g, g_nodes (add_all l g) = g_nodes g.
Proof. induction l; simpl; intros g; auto. unfold add_all in *. simpl. rewrite IHl. apply add_edge_nodes. Qed.

Lemma add_all_NoDup l : forall g, NoDup (ekeys g) -> NoDup (ekeys (add_all l g)).
Proof. induction l; simpl; intros g H; auto. unfold add_all in *. simpl. apply IHl. now apply add_edge_NoDup. Qed.

Lemma add_all_link l : forall g a b, link (add_all l g) a b <-> link g a b \/ exists e, In e l /\ e_src e = a /\ e_dst e = b.
Proof.
  induction l as [|e l IH]; simpl; intros g a b.
  - split; [auto|]. intros [H|[e [[] _]]]; auto.
  - change (add_all (e :: l) g) with (add_all l (add_edge g (e_src e) (e_dst e) (e_lw e))).
    rewrite IH, add_edge_link. split.
    + intros [[H|[-> ->]]|[e' [H1 H2]]]; auto; right; [exists e|exists e']; auto.
    + intros [H|[e' [[<-|H1] [H2 H3]]]]; auto. right. exists e'. auto.
Qed.

Lemma add_all_weight l : forall g e, In e (g_edges (add_all l g)) ->
  exists e0, (In e0 (g_edges g) \/ In e0 l) /\ e_src e = e_src e0 /\ e_dst e = e_dst e0 /\ e_lw e = e_lw e0.
Proof.
  induction l as [|a l IH]; simpl; intros g e H.
  - exists e. auto.
  - change (add_all (a :: l) g) with (add_all l (add_edge g (e_src a) (e_dst a) (e_lw a))) in H.
    apply IH in H. destruct H as [e0 [[H|H] [E1 [E2 E3]]]].
    + apply add_edge_In in H. destruct H as [H|[A1 [A2 [A3|[A3 [e1 [B1 [B2 [B3 B4]]]]]]]]].
      * exists e0. auto.
      * exists a. repeat split; auto; congruence.
      * exists e1. repeat split; auto; congruence.
    + exists e0. auto.
Qed.

Lemma add_all_kind l g u : node_kind (add_all l g) u = node_kind g u.
Proof. unfold node_kind. now rewrite add_all_nodes. Qed.

Lemma add_all_ids l g : node_ids (add_all l g) = node_ids g.
Proof. unfold node_ids. now rewrite add_all_nodes. Qed.

(** ** The invariant of rooted circuits *)
Record dinv (rk : id -> nat) g (r : id) : Prop := {
  di_nodes : NoDup (node_ids g);
  di_keys : NoDup (ekeys g);
  di_src : forall e, In e (g_edges g) -> In (e_src e) (node_ids g);
  di_dst : forall e, In e (g_edges g) -> In (e_dst e) (node_ids g);
  di_rk : forall a b, link g a b -> rk b < rk a;
  di_root : In r (node_ids g);
  di_top : forall a, ~ link g a r;
  di_all : forall u, In u (node_ids g) -> u <> r -> exists a, link g a u;
  di_w : forall e, In e (g_edges g) -> node_kind g (e_src e) = Some USum -> exists x, e_lw e = Some (Fin x)
}.

Lemma dinv_wf rk g r : dinv rk g r -> wf g.
Proof. intros []. constructor; auto. Qed.

Lemma link_dst g a b : link g a b -> In b (map e_dst (g_edges g)).
Proof. intros [e [He [_ <-]]]. now apply in_map. Qed.

Lemma dinv_root rk g r : dinv rk g r -> root g = Some r.
Proof.
  intros H. pose proof H as []. apply root_intro; auto; [eapply dinv_wf; eauto| |].
  - intros Hin. apply in_map_iff in Hin. destruct Hin as [e [<- He]]. apply (di_top0 (e_src e)). exists e. auto.
  - intros u Hu Hne. destruct (di_all0 u Hu Hne) as [a Ha]. eapply link_dst; eauto.
Qed.

(** A contraction step on a shared circuit: [s] goes away, all edges of [new] come in. *)
Lemma replace_dinv rk g r s new : dinv rk g r -> In s (node_ids g) -> s <> r ->
  (forall e, In e new -> e_src e <> s /\ e_dst e <> s /\ (exists a b, link g (e_src e) a /\ rk b < rk (e_src e) /\ e_dst e = b) /\
     In (e_src e) (node_ids g) /\ In (e_dst e) (node_ids g) /\ (exists a, link g a (e_dst e)) /\
     (node_kind g (e_src e) = Some USum -> exists x, e_lw e = Some (Fin x))) ->
  (forall c, link g s c -> exists e, In e new /\ e_dst e = c) ->
  dinv rk (drop_node (add_all new g) s) r.
Proof.
  intros H Hs Hsr Hnew Hch. pose proof H as [].
  assert (Hlk : forall a b, link (drop_node (add_all new g) s) a b <->
    (link g a b \/ exists e, In e new /\ e_src e = a /\ e_dst e = b) /\ a <> s /\ b <> s).
  { intros a b. now rewrite drop_link, add_all_link. }
  assert (Hed : forall e, In e (g_edges (drop_node (add_all new g) s)) -> link (drop_node (add_all new g) s) (e_src e) (e_dst e)).
  { intros e He. exists e. auto. }
  constructor.
  - apply drop_node_NoDup. rewrite add_all_ids. auto.
  - apply drop_NoDup. now apply add_all_NoDup.
  - intros e He. apply drop_node_ids. rewrite add_all_ids. apply Hed, Hlk in He. destruct He as [[[e' [H1 [H2 H3]]]|[e' [H1 [H2 H3]]]] [H4 H5]].
    + split; auto. rewrite <- H2. auto.
    + split; auto. rewrite <- H2. now apply Hnew.
  - intros e He. apply drop_node_ids. rewrite add_all_ids. apply Hed, Hlk in He. destruct He as [[[e' [H1 [H2 H3]]]|[e' [H1 [H2 H3]]]] [H4 H5]].
    + split; auto. rewrite <- H3. auto.
    + split; auto. rewrite <- H3. now apply Hnew.
  - intros a b Hl. apply Hlk in Hl. destruct Hl as [[Hl|[e [H1 [<- <-]]]] _]; auto.
    destruct (Hnew e H1) as [_ [_ [[a [b [_ [Hr ->]]]] _]]]. exact Hr.
  - apply drop_node_ids. rewrite add_all_ids. auto.
  - intros a Hl. apply Hlk in Hl. destruct Hl as [[Hl|[e [H1 [_ H2]]]] _]; [eapply di_top0; eauto|].
    destruct (Hnew e H1) as [_ [_ [_ [_ [_ [[b Hb] _]]]]]]. rewrite H2 in Hb. eapply di_top0; eauto.
  - intros u Hu Hne. apply drop_node_ids in Hu. rewrite add_all_ids in Hu. destruct Hu as [Hu Hus].
    destruct (di_all0 u Hu Hne) as [a Ha]. destruct (Nat.eq_dec a s) as [->|Has].
    + destruct (Hch u Ha) as [e [He E]]. exists (e_src e). apply Hlk. destruct (Hnew e He) as [B1 _].
      split; [right; exists e; auto|auto].
    + exists a. apply Hlk. auto.
  - intros e He Hk. apply drop_edges in He. destruct He as [He [H1 H2]]. rewrite drop_node_kind, add_all_kind in Hk by auto.
    apply add_all_weight in He. destruct He as [e0 [[He|He] [E1 [E2 E3]]]]; rewrite E3; rewrite E1 in Hk; auto.
    now apply Hnew.
Qed.

(** Everything below a root with one child is below that child. *)
Lemma single_child_bound rk g r c : dinv rk g r -> (forall b, link g r b -> b = c) ->
  forall u, In u (node_ids g) -> u <> r -> rk u <= rk c.
Proof.
  intros H Hc. pose proof H as []. destruct (list_rank_bound rk (node_ids g)) as [M HM].
  assert (G : forall n u, M - rk u <= n -> In u (node_ids g) -> u <> r -> rk u <= rk c).
  { induction n as [|n IH]; intros u Hn Hu Hne; destruct (di_all0 u Hu Hne) as [a Ha]; pose proof (di_rk0 _ _ Ha) as Hlt;
      assert (Hain : In a (node_ids g)) by (destruct Ha as [e [He [<- _]]]; auto);
      destruct (Nat.eq_dec a r) as [->|Har]; try (rewrite (Hc u Ha); lia).
    - pose proof (HM a Hain). lia.
    - assert (rk a <= rk c) by (apply IH; auto; lia). lia. }
  intros u. apply (G (M - rk u)); lia.
Qed.

Lemma drop_root_dinv rk g r c : dinv rk g r -> link g r c -> (forall b, link g r b -> b = c) -> dinv rk (drop_node g r) c.
Proof.
  intros H Hrc Hc. pose proof H as [].
  assert (Hnr : forall a b, link g a b -> b <> r) by (intros a b Hl ->; eapply di_top0; eauto).
  constructor.
  - now apply drop_node_NoDup.
  - now apply drop_NoDup.
  - intros e He. apply drop_edges in He. apply drop_node_ids. split; [apply di_src0|]; tauto.
  - intros e He. apply drop_edges in He. apply drop_node_ids. split; [apply di_dst0|]; tauto.
  - intros a b Hl. apply drop_link in Hl. apply di_rk0. tauto.
  - apply drop_node_ids. split; [destruct Hrc as [e [He [_ <-]]]; auto|eauto].
  - intros a Hl. apply drop_link in Hl. destruct Hl as [Hl [Ha _]]. pose proof (di_rk0 _ _ Hl).
    assert (In a (node_ids g)) by (destruct Hl as [e [He [<- _]]]; auto).
    pose proof (single_child_bound rk g r c H Hc a H1 Ha). lia.
  - intros u Hu Hne. apply drop_node_ids in Hu. destruct Hu as [Hu Hur]. destruct (di_all0 u Hu Hur) as [a Ha].
    exists a. apply drop_link. repeat split; auto. intros ->. apply Hne. now apply Hc.
  - intros e He Hk. apply drop_edges in He. rewrite drop_node_kind in Hk by tauto. apply di_w0; tauto.
Qed.

Section Step.
Variable rk : id -> nat.
Variable dead : D -> bool.

(** What one unit's simplify does to the links. *)
Record dstep (u : id) g g' : Prop := {
  ds_sub : forall x, In x (node_ids g') -> In x (node_ids g);
  ds_kind : forall x, In x (node_ids g') -> node_kind g' x = node_kind g x;
  ds_later : forall x, In x (node_ids g) -> rk u < rk x -> In x (node_ids g');
  ds_link : forall a b, link g' a b -> a <> u -> rk a <= rk u -> link g a b
}.

Lemma dstep_refl u g : dstep u g g.
Proof. constructor; auto. Qed.

Lemma dstep_trans u g1 g2 g3 : dstep u g1 g2 -> dstep u g2 g3 -> dstep u g1 g3.
Proof. intros [A1 A2 A3 A4] [B1 B2 B3 B4]. constructor; auto. intros x Hx. rewrite B2 by auto. auto. Qed.

Lemma d_collapse g r u c : dinv rk g r -> In u (node_ids g) -> subcircuits g u = [c] ->
  exists g' r', remove_node (connect_incoming_edges_to g u c) u = Some g' /\ dinv rk g' r' /\ dstep u g g' /\ ~ In u (node_ids g') /\ (u <> r -> r' = r).
Proof.
  intros H Hu Hs. pose proof H as [].
  assert (Huc : forall b, link g u b <-> b = c).
  { intros b. rewrite link_sub, Hs. simpl. intuition. }
  set (new := map (fun e => mkEdge (e_src e) c (e_lw e)) (in_edges g u)).
  assert (Hcon : connect_incoming_edges_to g u c = add_all new g).
  { unfold connect_incoming_edges_to, add_all, new. rewrite <- fold_left_map. reflexivity. }
  rewrite Hcon. exists (drop_node (add_all new g) u), (if Nat.eq_dec u r then c else r).
  split; [|split; [|split; [|split]]].
  - unfold remove_node. replace (has_node (add_all new g) u) with true; auto. symmetry. apply has_node_In. now rewrite add_all_ids.
  - destruct (Nat.eq_dec u r) as [->|Hur].
    + assert (new = []) as ->.
      { unfold new. destruct (in_edges g r) as [|e l] eqn:E; auto. exfalso.
        assert (He : In e (in_edges g r)) by (rewrite E; now left). apply in_edges_In in He.
        apply (di_top0 (e_src e)). exists e. tauto. }
      simpl. apply drop_root_dinv; auto; [now apply Huc|]. intros b. apply Huc.
    + apply replace_dinv; auto.
      * intros e He. apply in_map_iff in He. destruct He as [e0 [<- He]]. apply in_edges_In in He. destruct He as [He Ed]. simpl.
        assert (L1 : link g (e_src e0) u) by (exists e0; auto). assert (L2 : link g u c) by now apply Huc.
        pose proof (di_rk0 _ _ L1). pose proof (di_rk0 _ _ L2).
        split; [intros E; rewrite E in *; lia|]. split; [intros ->; lia|]. split.
        -- exists u, c. repeat split; auto. lia.
        -- split; [auto|]. split; [|split; [eauto|]].
           ++ destruct L2 as [e2 [He2 [_ <-]]]. auto.
           ++ intros Hk. auto.
      * intros b Hb. apply Huc in Hb. subst b. destruct (di_all0 u Hu Hur) as [a [e [He [E1 E2]]]].
        exists (mkEdge (e_src e) c (e_lw e)). split; auto. apply in_map_iff. exists e. split; auto. now apply in_edges_In.
  - constructor.
    + intros x Hx. apply drop_node_ids in Hx. rewrite add_all_ids in Hx. tauto.
    + intros x Hx. apply drop_node_ids in Hx. rewrite drop_node_kind, add_all_kind; tauto.
    + intros x Hx Hlt. apply drop_node_ids. rewrite add_all_ids. split; auto. intros ->. lia.
    + intros a b Hl Hau Hle. apply drop_link in Hl. destruct Hl as [Hl _]. apply add_all_link in Hl. destruct Hl as [Hl|[e [He [<- <-]]]]; auto.
      exfalso. apply in_map_iff in He. destruct He as [e0 [<- He]]. apply in_edges_In in He. simpl in *.
      assert (L1 : link g (e_src e0) u) by (exists e0; tauto). pose proof (di_rk0 _ _ L1). lia.
  - rewrite drop_node_ids. tauto.
  - destruct (Nat.eq_dec u r); tauto.
Qed.

Lemma lws_Some g r s : dinv rk g r -> node_kind g s = Some USum ->
  exists l, log_weighted_subcircuits g s = Some l /\ map snd l = subcircuits g s /\ Forall (fun p => exists x, fst p = Fin x) l.
Proof.
  intros H Hk.
  assert (Hw : forall e, In e (out_edges g s) -> exists x, e_lw e = Some (Fin x)).
  { intros e He. apply out_edges_In in He. destruct He as [He Es]. apply (di_w _ _ _ H); auto. now rewrite Es. }
  unfold log_weighted_subcircuits, subcircuits. induction (out_edges g s) as [|e l IH]; simpl.
  - exists []. auto.
  - destruct (Hw e) as [x Hx]; [now left|]. rewrite Hx. destruct IH as [l' [H1 [H2 H3]]]; [intros; apply Hw; now right|].
    fold (log_weighted_subcircuits g s) in *. rewrite H1. exists ((Fin x, e_dst e) :: l'). simpl. rewrite H2. repeat split; auto.
    constructor; auto. simpl. eauto.
Qed.

(** Merging a sum child of [u]; afterwards [u] has its other children and those of the merged unit. *)
Lemma d_merge g r u s x : dinv rk g r -> link g u s -> node_kind g u = Some USum -> node_kind g s = Some USum ->
  exists g', sum_merge u g (Fin x, s) = Some g' /\ dinv rk g' r /\ dstep u g g' /\ ~ In s (node_ids g') /\ In u (node_ids g') /\
    (forall b, link g' u b <-> (link g u b /\ b <> s) \/ link g s b) /\
    (forall y, In y (node_ids g) -> y <> s -> In y (node_ids g')).
Proof.
  intros H Hus Hku Hks. pose proof H as [].
  destruct (lws_Some g r s H Hks) as [subs [Hl [Hsub Hfin]]].
  set (new := map (fun p => mkEdge u (snd p) (Some (nadd (fst p) (Fin x)))) subs).
  assert (Hnew : forall b, (exists e, In e new /\ e_dst e = b) <-> link g s b).
  { intros b. rewrite link_sub, <- Hsub. unfold new. rewrite in_map_iff. split.
    - intros [e [He <-]]. apply in_map_iff in He. destruct He as [p [<- Hp]]. exists p. auto.
    - intros [p [<- Hp]]. eexists. split; [apply in_map_iff; exists p; split; [reflexivity|exact Hp]|reflexivity]. }
  assert (Hnsrc : forall e, In e new -> e_src e = u).
  { intros e He. apply in_map_iff in He. destruct He as [p [<- _]]. reflexivity. }
  pose proof (di_rk0 _ _ Hus) as Hlt.
  assert (Hsin : In s (node_ids g)) by now apply node_kind_ids in Hks.
  assert (Hlink : forall a b, link (drop_node (add_all new g) s) a b <-> (link g a b \/ (a = u /\ link g s b)) /\ a <> s /\ b <> s).
  { intros a b. rewrite drop_link, add_all_link. split.
    - intros [[Hab|[e [He [<- <-]]]] Hn]; split; auto. right. split; [auto|]. apply Hnew. eauto.
    - intros [[Hab|[-> Hb]] Hn]; split; auto. right. apply Hnew in Hb. destruct Hb as [e [He E]]. exists e. auto. }
  exists (drop_node (add_all new g) s). split; [|split; [|split; [|split; [|split; [|split]]]]].
  - unfold sum_merge. simpl. rewrite Hks, Hl. unfold remove_node.
    replace (fold_left _ subs g) with (add_all new g).
    + replace (has_node (add_all new g) s) with true; auto. symmetry. apply has_node_In. now rewrite add_all_ids.
    + unfold add_all, new. rewrite <- fold_left_map. reflexivity.
  - apply replace_dinv; auto.
    + intros ->. eapply di_top0; eauto.
    + intros e He. assert (Hb : link g s (e_dst e)) by (apply Hnew; eauto). pose proof (di_rk0 _ _ Hb).
      rewrite (Hnsrc e He). split; [intros ->; lia|]. split; [intros E; rewrite E in *; lia|]. split.
      * exists s, (e_dst e). repeat split; auto. lia.
      * split; [now apply node_kind_ids in Hku|]. split; [destruct Hb as [e2 [He2 [_ <-]]]; auto|]. split; [eauto|].
        intros _. apply in_map_iff in He. destruct He as [p [<- Hp]]. rewrite Forall_forall in Hfin. destruct (Hfin p Hp) as [y ->].
        simpl. eauto.
    + intros c Hc. now apply Hnew.
  - constructor.
    + intros y Hy. apply drop_node_ids in Hy. rewrite add_all_ids in Hy. tauto.
    + intros y Hy. apply drop_node_ids in Hy. rewrite drop_node_kind, add_all_kind; tauto.
    + intros y Hy Hlt'. apply drop_node_ids. rewrite add_all_ids. split; auto. intros ->. lia.
    + intros a b Hab Hau _. apply Hlink in Hab. destruct Hab as [[Hab|[Ha _]] _]; tauto.
  - rewrite drop_node_ids. tauto.
  - apply drop_node_ids. rewrite add_all_ids. split; [now apply node_kind_ids in Hku|]. intros ->. lia.
  - intros b. rewrite Hlink. split.
    + intros [[Hb|[_ Hb]] [_ Hn]]; auto.
    + intros [[Hb Hn]|Hb]; (split; [auto|split; [intros ->; lia|auto]]). intros ->. pose proof (di_rk0 _ _ Hb). lia.
  - intros y Hy Hn. apply drop_node_ids. rewrite add_all_ids. auto.
Qed.

Lemma d_merge_loop u l : forall g r, dinv rk g r -> node_kind g u = Some USum -> NoDup (map snd l) ->
  Forall (fun p => exists x, fst p = Fin x) l -> (forall p, In p l -> link g u (snd p)) ->
  exists g', foldM (sum_merge u) l g = Some g' /\ dinv rk g' r /\ dstep u g g' /\ In u (node_ids g') /\
    ((forall s b, link g u s -> node_kind g s = Some USum -> link g s b -> node_kind g b <> Some USum) ->
     forall b, link g' u b -> node_kind g' b = Some USum -> link g u b /\ ~ In b (map snd l)).
Proof.
  induction l as [|[w s] l IH]; intros g r H Hu Hnd Hf Hl; cbn [foldM].
  - exists g. split; [auto|split; [auto|split; [apply dstep_refl|split; [now apply node_kind_ids in Hu|]]]]. auto.
  - inversion Hf as [|? ? Hx Hf']; subst. destruct Hx as [x Hx]. cbn [fst] in Hx. subst w.
    inversion Hnd as [|? ? Hns Hnd']; subst. cbn [snd] in *.
    assert (Hus : link g u s) by (apply (Hl (Fin x, s)); now left).
    assert (Hskip : node_kind g s <> Some USum ->
      exists g', match sum_merge u g (Fin x, s) with Some s' => foldM (sum_merge u) l s' | None => None end = Some g' /\
        dinv rk g' r /\ dstep u g g' /\ In u (node_ids g') /\
        ((forall s b, link g u s -> node_kind g s = Some USum -> link g s b -> node_kind g b <> Some USum) ->
          forall b, link g' u b -> node_kind g' b = Some USum -> link g u b /\ ~ (s = b \/ In b (map snd l)))).
    { intros Hn. rewrite sum_merge_skip by auto.
      destruct (IH g r) as [g' [G1 [G2 [G3 [G4 G5]]]]]; auto; [intros p Hp; apply Hl; now right|].
      exists g'. split; [auto|split; [auto|split; [auto|split; [auto|]]]].
      intros Hh b Hb Hkb. destruct (G5 Hh b Hb Hkb) as [Hb1 Hb2]. split; auto. intros [->|Hin]; auto.
      apply Hn. rewrite <- (ds_kind _ _ _ G3); auto. destruct Hb as [e [He [_ <-]]]. now apply (di_dst _ _ _ G2). }
    destruct (node_kind g s) as [[d| |]|] eqn:Ek; try (apply Hskip; discriminate).
    destruct (d_merge g r u s x H Hus Hu Ek) as [g1 [M1 [M2 [M3 [M4 [M5 [M6 M7]]]]]]]. rewrite M1.
    destruct (IH g1 r) as [g' [G1 [G2 [G3 [G4 G5]]]]]; auto.
    + rewrite (ds_kind _ _ _ M3); auto.
    + intros p Hp. apply M6. left. split; [apply Hl; now right|]. intros E. apply Hns. rewrite <- E. now apply in_map.
    + exists g'. split; [auto|split; [auto|split; [eapply dstep_trans; eauto|split; [auto|]]]].
      assert (Hk1 : forall y, In y (node_ids g1) -> node_kind g1 y = node_kind g y) by apply M3.
      assert (Hd1 : forall a b, link g1 a b -> In a (node_ids g1) /\ In b (node_ids g1)).
      { intros a b [e [He [<- <-]]]. split; [now apply (di_src _ _ _ M2)|now apply (di_dst _ _ _ M2)]. }
      intros Hh b Hb Hkb.
      assert (Hh1 : forall s0 b0, link g1 u s0 -> node_kind g1 s0 = Some USum -> link g1 s0 b0 -> node_kind g1 b0 <> Some USum).
      { intros s0 b0 Ha Hka Hab. destruct (Hd1 _ _ Ha) as [_ Hs0]. destruct (Hd1 _ _ Hab) as [_ Hb0]. rewrite (Hk1 _ Hb0).
        rewrite (Hk1 _ Hs0) in Hka. apply M6 in Ha. destruct Ha as [[Ha Hne]|Ha].
        - apply (Hh s0); auto. apply (ds_link _ _ _ M3) in Hab; auto.
          + intros ->. pose proof (di_rk _ _ _ H _ _ Ha). lia.
          + pose proof (di_rk _ _ _ H _ _ Ha). lia.
        - exfalso. apply (Hh s s0); auto. }
      destruct (G5 Hh1 b Hb Hkb) as [Hb1 Hb2].
      assert (Hbk : node_kind g b = Some USum).
      { rewrite <- Hk1; [|now apply Hd1 in Hb1]. rewrite <- (ds_kind _ _ _ G3); auto. destruct Hb as [e [He [_ <-]]]. now apply (di_dst _ _ _ G2). }
      apply M6 in Hb1. destruct Hb1 as [[Hb1 Hne]|Hb1].
      * split; auto. simpl. intros [E|E]; auto.
      * exfalso. apply (Hh s b); auto.
Qed.

Definition no_sum_child g (u : id) : Prop := node_kind g u = Some USum -> forall b, link g u b -> node_kind g b <> Some USum.

Lemma d_unit_step g r u : dinv rk g r -> alive dead g -> In u (node_ids g) ->
  exists g' r', unit_simplify dead g u = Some g' /\ dinv rk g' r' /\ dstep u g g' /\
    ((forall s, link g u s -> no_sum_child g s) -> In u (node_ids g') -> no_sum_child g' u).
Proof.
  intros H Ha Hin. destruct (node_kind_complete g u Hin) as [k Hk]. unfold unit_simplify. rewrite Hk.
  assert (Hone : forall c, subcircuits g u = [c] ->
    exists g' r', remove_node (connect_incoming_edges_to g u c) u = Some g' /\ dinv rk g' r' /\ dstep u g g' /\
      ((forall s, link g u s -> no_sum_child g s) -> In u (node_ids g') -> no_sum_child g' u)).
  { intros c Hc. destruct (d_collapse g r u c H Hin Hc) as [g' [r' [H1 [H2 [H3 [H4 H5]]]]]]. exists g', r'. repeat (split; [now auto|]). tauto. }
  assert (Hsame : (forall s, link g u s -> no_sum_child g s) -> k <> USum -> In u (node_ids g) -> no_sum_child g u).
  { intros _ Hn _ Hk'. congruence. }
  destruct k as [d| |].
  - unfold leaf_simplify. rewrite (Ha u d Hk). exists g, r. split; [auto|split; [auto|split; [apply dstep_refl|]]].
    intros; apply Hsame; auto. discriminate.
  - unfold sum_simplify. destruct (lws_Some g r u H Hk) as [l [L1 [L2 L3]]]. rewrite L1.
    assert (Hloop : exists g' r', foldM (sum_merge u) l g = Some g' /\ dinv rk g' r' /\ dstep u g g' /\
      ((forall s, link g u s -> no_sum_child g s) -> In u (node_ids g') -> no_sum_child g' u)).
    { destruct (d_merge_loop u l g r) as [g' [G1 [G2 [G3 [G4 G5]]]]]; auto.
      - rewrite L2. unfold subcircuits. pose proof (di_keys _ _ _ H) as Hnd. unfold ekeys in Hnd.
        unfold out_edges. clear - Hnd. induction (g_edges g) as [|e es IH]; simpl; [constructor|].
        inversion Hnd as [|? ? Hn Hnd']; subst. destruct (e_src e =? u) eqn:E; auto. simpl. constructor; auto.
        apply Nat.eqb_eq in E. intros Hin. apply Hn. apply in_map_iff in Hin. destruct Hin as [e' [E1 He']]. apply filter_In in He'.
        rewrite Nat.eqb_eq in He'. apply in_map_iff. exists e'. split; [|tauto]. f_equal; [destruct He'; congruence|auto].
      - intros p Hp. apply link_sub. rewrite <- L2. now apply in_map.
      - exists g', r. split; [auto|split; [auto|split; [auto|]]]. intros Hh Hu' Hk' b Hb Hkb.
        destruct (G5 (fun s b Hs Hks Hsb => Hh s Hs Hks b Hsb) b Hb Hkb) as [B1 B2]. apply B2. rewrite L2. now apply link_sub. }
    destruct (subcircuits g u) as [|c [|c' cs]] eqn:Es; auto.
  - unfold prod_simplify. destruct (subcircuits g u) as [|c [|c' cs]] eqn:Es; auto.
    + exists g, r. split; [auto|split; [auto|split; [apply dstep_refl|]]]. intros; apply Hsame; auto. discriminate.
    + exists g, r. rewrite prod_merges_noop. split; [auto|split; [auto|split; [apply dstep_refl|]]]. intros; apply Hsame; auto. discriminate.
Qed.

Lemma d_alive u g g' : alive dead g -> dstep u g g' -> alive dead g'.
Proof. intros Ha H v d Hv. apply (Ha v d). rewrite <- (ds_kind _ _ _ H); auto. now apply node_kind_ids in Hv. Qed.

(** Whatever the order of the units, if nothing raises there is one root. *)
Lemma d_loop_root order : forall g r g', dinv rk g r -> alive dead g -> foldM (unit_simplify dead) order g = Some g' ->
  exists r', dinv rk g' r'.
Proof.
  induction order as [|u order IH]; intros g r g' H Ha Hf; simpl in Hf.
  - injection Hf as <-. eauto.
  - destruct (unit_simplify dead g u) as [g1|] eqn:E; [|discriminate].
    assert (Hin : In u (node_ids g)).
    { unfold unit_simplify in E. destruct (node_kind g u) eqn:Ek; [|discriminate]. eapply node_kind_ids; eauto. }
    destruct (d_unit_step g r u H Ha Hin) as [g2 [r2 [H1 [H2 [H3 _]]]]]. rewrite E in H1. injection H1 as <-.
    eapply IH; eauto. eapply d_alive; eauto.
Qed.

(** In a topological order nothing raises and finished sum units have no sum children. *)
Lemma d_loop_topo rest : forall g r, dinv rk g r -> alive dead g -> StronglySorted (fun a b => rk a < rk b) rest ->
  (forall u, In u rest -> In u (node_ids g)) ->
  (forall u, In u (node_ids g) -> ~ In u rest -> no_sum_child g u) ->
  (forall v, In v (node_ids g) -> ~ In v rest -> forall w, In w rest -> rk v < rk w) ->
  exists g' r', foldM (unit_simplify dead) rest g = Some g' /\ dinv rk g' r' /\ forall u, no_sum_child g' u.
Proof.
  induction rest as [|u rest IH]; intros g r H Ha Hs Hin Hdone Hord; simpl.
  - exists g, r. split; [auto|split; auto]. intros u Hk. apply (Hdone u); auto. now apply node_kind_ids in Hk.
  - inversion Hs as [|? ? Hs' Hfa]; subst. rewrite Forall_forall in Hfa.
    destruct (d_unit_step g r u H Ha) as [g1 [r1 [H1 [H2 [H3 H4]]]]]; [apply Hin; now left|]. rewrite H1.
    assert (Hnotin : forall v, rk v < rk u -> ~ In v (u :: rest)).
    { intros v Hlt [->|Hv]; [lia|]. apply Hfa in Hv. lia. }
    assert (Hchild : forall s, link g u s -> no_sum_child g s).
    { intros s Hl. pose proof (di_rk _ _ _ H _ _ Hl). apply Hdone; [destruct Hl as [e [He [_ <-]]]; now apply (di_dst _ _ _ H)|]. now apply Hnotin. }
    apply (IH g1 r1); auto.
    + eapply d_alive; eauto.
    + intros v Hv. apply (ds_later _ _ _ H3); auto. apply Hin. now right.
    + intros v Hv Hnv. destruct (Nat.eq_dec v u) as [->|Hvu]; [now apply H4|].
      assert (Hvg : In v (node_ids g)) by now apply H3.
      assert (Hold : no_sum_child g v) by (apply Hdone; auto; intros [E|E]; auto).
      assert (Hle : rk v < rk u) by (apply (Hord v Hvg); [intros [E|E]; auto|now left]).
      intros Hk b Hb. rewrite (ds_kind _ _ _ H3) in Hk by auto.
      assert (Hbin : In b (node_ids g1)) by (destruct Hb as [e [He [_ <-]]]; now apply (di_dst _ _ _ H2)).
      rewrite (ds_kind _ _ _ H3) by auto. apply Hold; auto. apply (ds_link _ _ _ H3) in Hb; auto. lia.
    + intros v Hv Hnv w Hw. assert (Hvg : In v (node_ids g)) by now apply H3. destruct (Nat.eq_dec v u) as [->|Hvu]; [now apply Hfa|].
      apply (Hord v Hvg); [intros [E|E]; auto|now right].
Qed.
End Step.
End Dag.

Section Main.
Context {D : Type}.
Implicit Types g : graph D.

(** Every edge of a sum unit carries a finite log weight. *)
Definition finite_weights g : Prop :=
  forall e, In e (g_edges g) -> node_kind g (e_src e) = Some USum -> exists x, e_lw e = Some (Fin x).

Lemma rooted_dinv g r rk : wf g -> (forall e, In e (g_edges g) -> rk (e_dst e) < rk (e_src e)) -> root g = Some r ->
  finite_weights g -> dinv rk g r.
Proof.
  intros Hwf Hrk Hr Hw. destruct (root_spec g r Hr) as [H1 H2]. constructor; try apply Hwf; auto.
  - intros a b [e [He [<- <-]]]. auto.
  - intros a [e [He [_ E]]]. apply H2. rewrite <- E. now apply in_map.
  - intros u Hu Hne. destruct (in_dec Nat.eq_dec u (map e_dst (g_edges g))) as [Hd|Hd].
    + apply in_map_iff in Hd. destruct Hd as [e [E He]]. exists (e_src e), e. auto.
    + exfalso. apply Hne. apply (root_unique g r); auto.
Qed.

Theorem simplify_root (dead : D -> bool) g g' : wf g -> acyclic g -> (exists r, root g = Some r) -> finite_weights g -> alive dead g ->
  simplify dead g = Some g' -> wf g' /\ acyclic g' /\ exists r', root g' = Some r'.
Proof.
  intros Hwf [rk Hrk] [r Hr] Hw Ha Hs. unfold simplify in Hs. destruct (bottom_up g) as [order|]; [|discriminate].
  destruct (d_loop_root rk dead order g r g') as [r' H']; auto; [now apply rooted_dinv|].
  split; [eapply dinv_wf; eauto|]. split; [|exists r'; eapply dinv_root; eauto].
  exists rk. intros e He. apply (di_rk _ _ _ H'). exists e. auto.
Qed.

Theorem simplify_layered (dead : D -> bool) g r : wf g -> acyclic g -> root g = Some r -> graded g r -> finite_weights g -> alive dead g ->
  exists g' r', simplify dead g = Some g' /\ wf g' /\ root g' = Some r' /\ forall u, no_sum_child g' u.
Proof.
  intros Hwf Hac Hr Hg Hw Ha. destruct (bottom_up_spec g r Hwf Hr) as [ls [Hls [Hbu _]]].
  set (order := concat (rev ls)) in *.
  assert (Ho : forall u, In u order <-> In u (node_ids g)).
  { intros u. unfold order. rewrite concat_rev_In, (layers_from_In g r ls Hls). split.
    - intros Hre. induction Hre; [now apply root_spec in Hr|]. now apply (wf_dst g Hwf).
    - now apply root_reaches_all. }
  assert (Hndo : NoDup order).
  { unfold order. apply (Permutation_NoDup (l := concat ls)); [|eapply layers_from_NoDup; eauto].
    clear. induction ls as [|l ls IH]; simpl; auto. rewrite concat_app. simpl. rewrite app_nil_r.
    rewrite IH. apply Permutation_app_comm. }
  assert (Htopo : topo_up g order) by (eapply graded_topo_up; eauto).
  assert (Hpos : forall e, In e (g_edges g) -> pos_in order (e_dst e) < pos_in order (e_src e)).
  { intros e He. eapply pos_topo; eauto. apply Ho. now apply (wf_src g Hwf). }
  destruct (d_loop_topo (pos_in order) dead order g r) as [g' [r' [H1 [H2 H3]]]]; auto.
  - now apply rooted_dinv.
  - now apply pos_in_sorted.
  - intros u Hu. now apply Ho.
  - intros u Hu Hn. exfalso. apply Hn. now apply Ho.
  - intros v Hv Hn. exfalso. apply Hn. now apply Ho.
  - exists g', r'. unfold simplify. rewrite Hbu. split; [exact H1|]. split; [eapply dinv_wf; eauto|]. split; [eapply dinv_root; eauto|auto].
Qed.
End Main.
