(** * GraphFacts: proofs about Graph.v (breadth first layers, reachability, trees) *)
From Coq Require Import List Arith Bool Lia Sorting.Sorted Permutation.
From Verif Require Import Num Graph.
Import ListNotations.

Lemma existsb_eqb_In u l : existsb (Nat.eqb u) l = true <-> In u l.
Proof.
  rewrite existsb_exists. split.
  - intros [x [Hx He]]. apply Nat.eqb_eq in He. now subst.
  - intros H. exists u. split; auto. apply Nat.eqb_refl.
Qed.

Lemma existsb_eqb_nIn u l : existsb (Nat.eqb u) l = false <-> ~ In u l.
Proof.
  rewrite <- existsb_eqb_In. destruct (existsb (Nat.eqb u) l); split; congruence || tauto.
Qed.

Section Facts.
Context {D : Type}.
Implicit Types g : graph D.

Lemma has_node_In g u : has_node g u = true <-> In u (node_ids g).
Proof. apply existsb_eqb_In. Qed.

Lemma node_kind_In g u k : node_kind g u = Some k -> In (u, k) (g_nodes g).
Proof.
  unfold node_kind. destruct (find _ _) as [[v k']|] eqn:E; [|discriminate].
  intros [= <-]. apply find_some in E. destruct E as [Hin He]. apply Nat.eqb_eq in He. simpl in *. now subst.
Qed.

Lemma node_kind_ids g u k : node_kind g u = Some k -> In u (node_ids g).
Proof. intros H. apply node_kind_In in H. apply (in_map fst) in H. exact H. Qed.

Lemma node_kind_complete g u : In u (node_ids g) -> exists k, node_kind g u = Some k.
Proof.
  intros H. unfold node_ids in H. apply in_map_iff in H. destruct H as [[v k] [Hv Hin]]. simpl in Hv. subst v.
  unfold node_kind. destruct (find _ _) as [[v k']|] eqn:E; eauto.
  apply (find_none _ _ E) in Hin. simpl in Hin. rewrite Nat.eqb_refl in Hin. discriminate.
Qed.

Lemma node_kind_NoDup g u k : NoDup (node_ids g) -> In (u, k) (g_nodes g) -> node_kind g u = Some k.
Proof.
  unfold node_ids, node_kind. induction (g_nodes g) as [|[v k'] l IH]; simpl; [tauto|].
  intros Hnd Hin. inversion Hnd as [|? ? Hn Hnd']; subst. destruct Hin as [[= -> ->]|Hin].
  - now rewrite Nat.eqb_refl.
  - destruct (v =? u) eqn:E.
    + apply Nat.eqb_eq in E. subst v. exfalso. apply Hn. apply (in_map fst) in Hin. exact Hin.
    + now apply IH.
Qed.

Lemma out_edges_In g u e : In e (out_edges g u) <-> In e (g_edges g) /\ e_src e = u.
Proof. unfold out_edges. rewrite filter_In, Nat.eqb_eq. tauto. Qed.

Lemma in_edges_In g u e : In e (in_edges g u) <-> In e (g_edges g) /\ e_dst e = u.
Proof. unfold in_edges. rewrite filter_In, Nat.eqb_eq. tauto. Qed.

Lemma subcircuits_In g u v : In v (subcircuits g u) <-> exists e, In e (g_edges g) /\ e_src e = u /\ e_dst e = v.
Proof.
  unfold subcircuits. rewrite in_map_iff. split.
  - intros [e [He Hin]]. apply out_edges_In in Hin. exists e. tauto.
  - intros [e [H1 [H2 H3]]]. exists e. rewrite out_edges_In. tauto.
Qed.

Lemma reach_trans g u v w : reach g u v -> reach g v w -> reach g u w.
Proof. intros H1 H2. induction H2; auto. eapply reach_step; eauto. Qed.

Lemma reach_child g u v : In v (subcircuits g u) -> reach g u v.
Proof.
  rewrite subcircuits_In. intros [e [H1 [H2 H3]]]. rewrite <- H3. eapply reach_step; [apply reach_refl| |]; eauto.
Qed.

(** ** Breadth first search *)

Lemma expand_children_spec cs : forall vis next vis' next',
  expand_children cs vis next = (vis', next') ->
  exists new, next' = next ++ new /\ vis' = rev new ++ vis /\ NoDup new /\
    (forall x, In x new -> ~ In x vis /\ In x cs) /\ (forall x, In x cs -> In x vis').
Proof.
  induction cs as [|c cs IH]; simpl; intros vis next vis' next' H.
  - injection H as <- <-. exists []. rewrite app_nil_r. simpl. repeat split; auto; try constructor; tauto.
  - destruct (existsb (Nat.eqb c) vis) eqn:E.
    + apply IH in H. destruct H as [new [-> [-> [Hnd [Hnew Hcs]]]]]. exists new. repeat split; auto.
      * apply Hnew in H; tauto.
      * apply Hnew in H; tauto.
      * intros x [<-|Hx]; auto. apply existsb_eqb_In in E. apply in_or_app; auto.
    + apply existsb_eqb_nIn in E. apply IH in H. destruct H as [new [-> [-> [Hnd [Hnew Hcs]]]]].
      exists (c :: new). rewrite <- app_assoc. simpl. rewrite <- app_assoc. simpl. repeat split; auto.
      * constructor; auto. intros Hc. apply Hnew in Hc. apply (proj1 Hc). now left.
      * destruct H as [<-|H]; auto. apply Hnew in H. intros Hv. apply (proj1 H). now right.
      * destruct H as [<-|H]; auto. apply Hnew in H. tauto.
      * intros x [<-|Hx]; auto. apply in_or_app. right. now left.
Qed.

Lemma expand_layer_spec g layer : forall vis next vis' next',
  expand_layer g layer vis next = (vis', next') ->
  exists new, next' = next ++ new /\ vis' = rev new ++ vis /\ NoDup new /\
    (forall x, In x new -> ~ In x vis /\ exists u, In u layer /\ In x (subcircuits g u)) /\
    (forall u x, In u layer -> In x (subcircuits g u) -> In x vis').
Proof.
  induction layer as [|u layer IH]; simpl; intros vis next vis' next' H.
  - injection H as <- <-. exists []. rewrite app_nil_r. simpl. repeat split; auto; try constructor; tauto.
  - destruct (expand_children (subcircuits g u) vis next) as [vis1 next1] eqn:E.
    apply expand_children_spec in E. destruct E as [n1 [-> [-> [Hnd1 [Hn1 Hc1]]]]].
    apply IH in H. destruct H as [n2 [-> [-> [Hnd2 [Hn2 Hc2]]]]].
    exists (n1 ++ n2). split; [now rewrite app_assoc|]. split; [now rewrite rev_app_distr, <- app_assoc|].
    repeat split; auto.
    + clear - Hnd1 Hnd2 Hn2. induction n1 as [|a n1 IHn]; simpl; auto.
      inversion Hnd1; subst. constructor.
      * rewrite in_app_iff. intros [Ha|Ha]; auto. apply Hn2 in Ha. apply (proj1 Ha). simpl.
        rewrite !in_app_iff. left. right. now left.
      * apply IHn; auto. intros x Hx. apply Hn2 in Hx. destruct Hx as [Hx1 Hx2]. split; auto.
        intros Hin. apply Hx1. simpl. rewrite in_app_iff in Hin. rewrite !in_app_iff. tauto.
    + apply in_app_iff in H. destruct H as [H|H].
      * apply Hn1 in H. tauto.
      * apply Hn2 in H. intros Hv. apply (proj1 H). apply in_app_iff. now right.
    + apply in_app_iff in H. destruct H as [H|H].
      * apply Hn1 in H. exists u. tauto.
      * apply Hn2 in H. destruct H as [_ [u' [Hu' Hx]]]. exists u'. tauto.
    + intros u' x [<-|Hu'] Hx.
      * apply in_app_iff. right. now apply Hc1.
      * eapply Hc2; eauto.
Qed.

(** One unfolding step of the loop on a non-empty layer. *)
Lemma bfs_loop_step g f cur vis : cur <> [] ->
  bfs_loop g (S f) cur vis =
    match bfs_loop g f (snd (expand_layer g cur vis [])) (fst (expand_layer g cur vis [])) with
    | None => None | Some ls => Some (cur :: ls) end.
Proof.
  destruct cur as [|c cur]; [congruence|]. intros _. cbn [bfs_loop].
  destruct (expand_layer g (c :: cur) vis []) as [a b]. reflexivity.
Qed.

Lemma bfs_loop_sound g : forall fuel cur vis ls, bfs_loop g fuel cur vis = Some ls ->
  forall x, In x (concat ls) -> exists u, In u cur /\ reach g u x.
Proof.
  induction fuel as [|f IH]; intros cur vis ls H x Hx.
  - destruct cur; simpl in H; [|discriminate]. injection H as <-. simpl in Hx. tauto.
  - destruct cur as [|c cur]; [simpl in H; injection H as <-; simpl in Hx; tauto|].
    rewrite bfs_loop_step in H by congruence.
    destruct (expand_layer g (c :: cur) vis []) as [vis' next] eqn:E. simpl in H.
    destruct (bfs_loop g f next vis') as [ls'|] eqn:Hb; [|discriminate]. injection H as <-.
    change (In x ((c :: cur) ++ concat ls')) in Hx.
    apply in_app_iff in Hx. destruct Hx as [Hx|Hx].
    + exists x. split; auto. apply reach_refl.
    + destruct (IH _ _ _ Hb _ Hx) as [u [Hu Hr]].
      apply expand_layer_spec in E. destruct E as [new [-> [-> [_ [Hnew _]]]]]. simpl in Hu.
      apply Hnew in Hu. destruct Hu as [_ [w [Hw Hc]]]. exists w. split; auto.
      eapply reach_trans; eauto. now apply reach_child.
Qed.

Lemma bfs_loop_closed g : forall fuel cur vis ls, bfs_loop g fuel cur vis = Some ls ->
  (forall x, In x cur -> In x vis) ->
  (forall x y, In x vis -> ~ In x cur -> In y (subcircuits g x) -> In y vis) ->
  forall x y, In x vis \/ In x (concat ls) -> In y (subcircuits g x) -> In y vis \/ In y (concat ls).
Proof.
  induction fuel as [|f IH]; intros cur vis ls H Hcv Hcl x y Hx Hy.
  - destruct cur; simpl in H; [|discriminate]. injection H as <-. simpl in *.
    destruct Hx as [Hx|[]]. left. eapply Hcl; eauto.
  - destruct cur as [|c cur].
    { simpl in H. injection H as <-. simpl in *. destruct Hx as [Hx|[]]. left. eapply Hcl; eauto. }
    rewrite bfs_loop_step in H by congruence.
    destruct (expand_layer g (c :: cur) vis []) as [vis' next] eqn:E. simpl in H.
    destruct (bfs_loop g f next vis') as [ls'|] eqn:Hb; [|discriminate]. injection H as <-.
    apply expand_layer_spec in E. destruct E as [new [-> [-> [_ [Hnew Hall]]]]]. simpl app in *.
    assert (HH : In y (rev new ++ vis) \/ In y (concat ls')).
    { eapply IH with (x := x); eauto.
      - intros z Hz. apply in_app_iff. left. now rewrite <- in_rev.
      - intros a b Ha Hna Hab. apply in_app_iff in Ha. rewrite <- in_rev in Ha. destruct Ha as [Ha|Ha]; [tauto|].
        destruct (in_dec Nat.eq_dec a (c :: cur)) as [Hc|Hc].
        + eapply Hall; eauto.
        + apply in_app_iff. right. eapply Hcl; eauto.
      - destruct Hx as [Hx|Hx].
        + left. apply in_app_iff. now right.
        + change (In x ((c :: cur) ++ concat ls')) in Hx.
          apply in_app_iff in Hx. destruct Hx as [Hx|Hx]; auto. left. apply in_app_iff. right. now apply Hcv. }
    change (In y vis \/ In y ((c :: cur) ++ concat ls')). rewrite in_app_iff.
    destruct HH as [HH|HH]; auto. apply in_app_iff in HH. rewrite <- in_rev in HH. destruct HH as [HH|HH]; auto.
    right. right. clear - Hb HH.
    destruct f as [|f]; destruct new as [|a new]; try (simpl in *; (discriminate || tauto)).
    rewrite bfs_loop_step in Hb by congruence. destruct (bfs_loop g f _ _); [|discriminate].
    injection Hb as <-. change (In y ((a :: new) ++ concat l)). apply in_app_iff. now left.
Qed.

Lemma bfs_loop_NoDup g : forall fuel cur vis ls, bfs_loop g fuel cur vis = Some ls ->
  NoDup cur -> (forall x, In x cur -> In x vis) ->
  NoDup (concat ls) /\ (forall x, In x (concat ls) -> In x vis -> In x cur).
Proof.
  induction fuel as [|f IH]; intros cur vis ls H Hnd Hcv.
  - destruct cur; simpl in H; [|discriminate]. injection H as <-. simpl. split; [constructor|tauto].
  - destruct cur as [|c cur].
    { simpl in H. injection H as <-. simpl. split; [constructor|tauto]. }
    rewrite bfs_loop_step in H by congruence.
    destruct (expand_layer g (c :: cur) vis []) as [vis' next] eqn:E. simpl in H.
    destruct (bfs_loop g f next vis') as [ls'|] eqn:Hb; [|discriminate]. injection H as <-.
    apply expand_layer_spec in E. destruct E as [new [-> [-> [Hndn [Hnew Hall]]]]]. simpl app in *.
    destruct (IH _ _ _ Hb Hndn) as [H1 H2].
    { intros x Hx. apply in_app_iff. left. now rewrite <- in_rev. }
    assert (Hdis : forall x, In x (concat ls') -> ~ In x vis).
    { intros x Hx Hv. assert (In x new) by (apply H2; auto; apply in_app_iff; now right).
      apply Hnew in H. tauto. }
    split.
    + change (NoDup ((c :: cur) ++ concat ls')).
      clear - Hnd H1 Hdis Hcv. induction (c :: cur) as [|a l IHl]; simpl; auto.
      inversion Hnd; subst. constructor.
      * rewrite in_app_iff. intros [Ha|Ha]; auto. apply (Hdis a Ha). apply Hcv. now left.
      * apply IHl; auto. intros x Hx. apply Hcv. now right.
    + intros x Hx Hv. change (In x ((c :: cur) ++ concat ls')) in Hx.
      apply in_app_iff in Hx. destruct Hx as [Hx|Hx]; auto. exfalso. eapply Hdis; eauto.
Qed.

Lemma NoDup_incl_len (l l' : list id) : NoDup l -> incl l l' -> length l <= length l'.
Proof. apply NoDup_incl_length. Qed.

(** The fuel of [layers_from] always suffices. *)
Lemma bfs_loop_fuel g : wf g -> forall fuel cur vis,
  NoDup vis -> incl vis (node_ids g) -> length (node_ids g) - length vis < fuel ->
  exists ls, bfs_loop g fuel cur vis = Some ls.
Proof.
  intros Hwf. induction fuel as [|f IH]; intros cur vis Hnd Hincl Hlt; [lia|].
  destruct cur as [|c cur]; [exists []; reflexivity|].
  rewrite bfs_loop_step by congruence.
  destruct (expand_layer g (c :: cur) vis []) as [vis' next] eqn:E. simpl.
  apply expand_layer_spec in E. destruct E as [new [-> [-> [Hndn [Hnew Hall]]]]]. simpl app.
  destruct new as [|a new].
  - destruct f; simpl; eexists; reflexivity.
  - assert (Hnd' : NoDup (rev (a :: new) ++ vis)).
    { assert (Hr : NoDup (rev (a :: new))) by (apply NoDup_rev; auto).
      assert (Hd : forall x, In x (rev (a :: new)) -> ~ In x vis).
      { intros x Hx. rewrite <- in_rev in Hx. apply Hnew in Hx. tauto. }
      clear - Hr Hd Hnd. induction (rev (a :: new)) as [|b l IHl]; simpl; auto.
      inversion Hr; subst. constructor.
      - rewrite in_app_iff. intros [Hb|Hb]; auto. apply (Hd b); simpl; auto.
      - apply IHl; auto. intros x Hx. apply Hd. now right. }
    assert (Hincl' : incl (rev (a :: new) ++ vis) (node_ids g)).
    { intros x Hx. apply in_app_iff in Hx. destruct Hx as [Hx|Hx]; [|now apply Hincl].
      rewrite <- in_rev in Hx. apply Hnew in Hx. destruct Hx as [_ [u [_ Hc]]]. apply subcircuits_In in Hc.
      destruct Hc as [e [He [_ <-]]]. now apply (wf_dst g Hwf). }
    destruct (IH (a :: new) _ Hnd' Hincl') as [ls Hls].
    + pose proof (NoDup_incl_len _ _ Hnd' Hincl'). rewrite app_length, rev_length in *. simpl in *. lia.
    + rewrite Hls. eexists; reflexivity.
Qed.

Lemma layers_from_total g r : wf g -> In r (node_ids g) -> exists ls, layers_from g r = Some ls.
Proof.
  intros Hwf Hr. unfold layers_from. rewrite (proj2 (has_node_In g r) Hr).
  apply bfs_loop_fuel; auto.
  - repeat constructor. simpl. tauto.
  - intros x [<-|[]]; auto.
  - unfold node_ids. rewrite map_length. simpl. lia.
Qed.

Lemma layers_from_In g r ls : layers_from g r = Some ls -> forall x, In x (concat ls) <-> reach g r x.
Proof.
  unfold layers_from. destruct (has_node g r) eqn:Hn; [|discriminate]. intros H x. split.
  - intros Hx. destruct (bfs_loop_sound _ _ _ _ _ H _ Hx) as [u [[<-|[]] Hr]]. exact Hr.
  - intros Hx.
    assert (Hroot : In r (concat ls)).
    { rewrite bfs_loop_step in H by congruence. destruct (bfs_loop g _ _ _); [|discriminate].
      injection H as <-. now left. }
    assert (Hcl := bfs_loop_closed _ _ _ _ _ H).
    induction Hx as [|v e Hv IH Hin He]; auto.
    destruct (Hcl ltac:(auto) ltac:(simpl; tauto) v (e_dst e)) as [[<-|[]]|]; auto.
    apply subcircuits_In. exists e. auto.
Qed.

Lemma layers_from_NoDup g r ls : layers_from g r = Some ls -> NoDup (concat ls).
Proof.
  unfold layers_from. destruct (has_node g r) eqn:Hn; [|discriminate]. intros H.
  eapply bfs_loop_NoDup; eauto. repeat constructor. simpl; tauto.
Qed.

(** ** Levels *)

Fixpoint levels_ok (lv : id -> nat) (k : nat) (ls : list (list id)) : Prop :=
  match ls with
  | [] => True
  | l :: ls' => (forall x, In x l -> lv x = k) /\ levels_ok lv (S k) ls'
  end.

Lemma bfs_loop_levels g (lv : id -> nat) (P : id -> Prop) :
  (forall e, In e (g_edges g) -> P (e_src e) -> P (e_dst e) /\ lv (e_dst e) = S (lv (e_src e))) ->
  forall fuel cur vis ls k, bfs_loop g fuel cur vis = Some ls ->
  (forall x, In x cur -> P x /\ lv x = k) -> levels_ok lv k ls.
Proof.
  intros HP. induction fuel as [|f IH]; intros cur vis ls k H Hcur.
  - destruct cur; simpl in H; [|discriminate]. injection H as <-. exact I.
  - destruct cur as [|c cur]; [simpl in H; injection H as <-; exact I|].
    rewrite bfs_loop_step in H by congruence.
    destruct (expand_layer g (c :: cur) vis []) as [vis' next] eqn:E. simpl in H.
    destruct (bfs_loop g f next vis') as [ls'|] eqn:Hb; [|discriminate]. injection H as <-.
    split.
    + intros x Hx. now apply Hcur.
    + eapply IH; eauto. apply expand_layer_spec in E. destruct E as [new [-> [-> [_ [Hnew _]]]]]. simpl.
      intros x Hx. apply Hnew in Hx. destruct Hx as [_ [u [Hu Hc]]]. apply subcircuits_In in Hc.
      destruct Hc as [e [He [Hs <-]]]. destruct (Hcur u Hu) as [HPu Hl]. subst u.
      destruct (HP e He HPu) as [H1 H2]. split; auto. lia.
Qed.

Lemma levels_ok_ge lv : forall ls k x, levels_ok lv k ls -> In x (concat ls) -> k <= lv x.
Proof.
  induction ls as [|l ls IH]; simpl; intros k x H Hx; [tauto|].
  apply in_app_iff in Hx. destruct H as [H1 H2]. destruct Hx as [Hx|Hx].
  - rewrite (H1 x Hx). lia.
  - apply IH with (k := S k) in Hx; auto. lia.
Qed.

Lemma StronglySorted_app {A} (R : A -> A -> Prop) l1 l2 :
  StronglySorted R l1 -> StronglySorted R l2 -> (forall x y, In x l1 -> In y l2 -> R x y) ->
  StronglySorted R (l1 ++ l2).
Proof.
  induction 1; simpl; intros H2 Hxy; auto. constructor.
  - apply IHStronglySorted; auto.
  - apply Forall_app. split; auto. apply Forall_forall. intros y Hy. apply Hxy; auto.
Qed.

Lemma concat_rev_In {A} (ls : list (list A)) x : In x (concat (rev ls)) <-> In x (concat ls).
Proof.
  rewrite !in_concat. split; intros [l [H1 H2]]; exists l; split; auto.
  - now rewrite in_rev.
  - now rewrite <- in_rev.
Qed.

Lemma const_level_sorted lv k (l : list id) : (forall x, In x l -> lv x = k) ->
  StronglySorted (fun a b => lv b <= lv a) l.
Proof.
  induction l; constructor.
  - apply IHl. intros; apply H; now right.
  - apply Forall_forall. intros y Hy. rewrite (H a), (H y); simpl; auto.
Qed.

Lemma levels_ok_sorted lv : forall ls k, levels_ok lv k ls ->
  StronglySorted (fun a b => lv b <= lv a) (concat (rev ls)).
Proof.
  induction ls as [|l ls IH]; simpl; intros k H; [constructor|].
  destruct H as [H1 H2]. rewrite concat_app. simpl. rewrite app_nil_r.
  apply StronglySorted_app.
  - eapply IH; eauto.
  - eapply const_level_sorted; eauto.
  - intros x y Hx Hy. rewrite concat_rev_In in Hx. rewrite (H1 y Hy).
    pose proof (levels_ok_ge _ _ _ _ H2 Hx). lia.
Qed.

Lemma levels_ok_sorted_down lv : forall ls k, levels_ok lv k ls ->
  StronglySorted (fun a b => lv a <= lv b) (concat ls).
Proof.
  induction ls as [|l ls IH]; simpl; intros k H; [constructor|].
  destruct H as [H1 H2]. apply StronglySorted_app.
  - clear - H1. induction l; constructor.
    + apply IHl. intros; apply H1; now right.
    + apply Forall_forall. intros y Hy. rewrite (H1 a), (H1 y); simpl; auto.
  - eapply IH; eauto.
  - intros x y Hx Hy. rewrite (H1 x Hx).
    pose proof (levels_ok_ge _ _ _ _ H2 Hy). lia.
Qed.

Lemma StronglySorted_split {A} (R : A -> A -> Prop) pre u post :
  StronglySorted R (pre ++ u :: post) -> forall y, In y post -> R u y.
Proof.
  induction pre; simpl; intros H y Hy; inversion H; subst.
  - rewrite Forall_forall in H3. auto.
  - auto.
Qed.

(** Every child of a unit occurs before the unit. *)
Definition topo_up g (order : list id) : Prop :=
  forall pre u post, order = pre ++ u :: post -> forall v, In v (subcircuits g u) -> In v pre.

(** Every parent of a unit occurs before the unit. *)
Definition topo_down g (order : list id) : Prop :=
  forall pre u post, order = pre ++ u :: post -> forall v, In v (subcircuits g u) -> In v post.

Lemma graded_levels g r ls : graded g r -> layers_from g r = Some ls ->
  exists lv, levels_ok lv 0 ls /\
    forall e, In e (g_edges g) -> reach g r (e_src e) -> lv (e_dst e) = S (lv (e_src e)).
Proof.
  intros [lv [Hr Hlv]] H. exists lv. split; auto.
  unfold layers_from in H. destruct (has_node g r); [|discriminate].
  eapply bfs_loop_levels with (P := reach g r); eauto.
  - intros e He Hp. split; [eapply reach_step; eauto|auto].
  - intros x [<-|[]]. split; [apply reach_refl|auto].
Qed.

Lemma graded_topo_up g r ls : graded g r -> layers_from g r = Some ls -> topo_up g (concat (rev ls)).
Proof.
  intros Hg H pre u post Heq v Hv.
  destruct (graded_levels _ _ _ Hg H) as [lv [Hl Hlv]].
  assert (Hu : reach g r u).
  { apply (layers_from_In _ _ _ H). rewrite <- concat_rev_In, Heq. apply in_app_iff. right. now left. }
  apply subcircuits_In in Hv. destruct Hv as [e [He [Hs Hd]]]. subst u v.
  assert (Hv : In (e_dst e) (concat (rev ls))).
  { rewrite concat_rev_In. apply (layers_from_In _ _ _ H). eapply reach_step; eauto. }
  rewrite Heq in Hv. apply in_app_iff in Hv. specialize (Hlv e He Hu).
  destruct Hv as [Hv|[Hv|Hv]]; auto; exfalso.
  - rewrite <- Hv in Hlv. lia.
  - pose proof (levels_ok_sorted _ _ _ Hl) as Hs. rewrite Heq in Hs.
    pose proof (StronglySorted_split _ _ _ _ Hs _ Hv). simpl in *. lia.
Qed.

Lemma graded_topo_down g r ls : graded g r -> layers_from g r = Some ls -> topo_down g (concat ls).
Proof.
  intros Hg H pre u post Heq v Hv.
  destruct (graded_levels _ _ _ Hg H) as [lv [Hl Hlv]].
  assert (Hu : reach g r u).
  { apply (layers_from_In _ _ _ H). rewrite Heq. apply in_app_iff. right. now left. }
  apply subcircuits_In in Hv. destruct Hv as [e [He [Hs Hd]]]. subst u v.
  assert (Hv : In (e_dst e) (concat ls)).
  { apply (layers_from_In _ _ _ H). eapply reach_step; eauto. }
  rewrite Heq in Hv. apply in_app_iff in Hv. specialize (Hlv e He Hu).
  destruct Hv as [Hv|[Hv|Hv]]; auto; exfalso.
  - pose proof (levels_ok_sorted_down _ _ _ Hl) as Hs. rewrite Heq in Hs.
    apply in_split in Hv. destruct Hv as [p1 [p2 ->]]. rewrite <- app_assoc in Hs. simpl in Hs.
    pose proof (StronglySorted_split _ _ _ _ Hs (e_src e)). simpl in H0.
    assert (lv (e_dst e) <= lv (e_src e)) by (apply H0; apply in_app_iff; right; now left). lia.
  - rewrite <- Hv in Hlv. lia.
Qed.

(** ** The root *)

Lemma root_candidates_In g u : In u (root_candidates g) <-> In u (node_ids g) /\ ~ In u (map e_dst (g_edges g)).
Proof.
  unfold root_candidates. rewrite filter_In. split.
  - intros [H1 H2]. split; auto. intros Hin. apply in_map_iff in Hin. destruct Hin as [e [He Hin]].
    assert (In e (in_edges g u)) by now apply in_edges_In. destruct (in_edges g u); [destruct H|discriminate].
  - intros [H1 H2]. split; auto. destruct (in_edges g u) as [|e l] eqn:E; auto. exfalso. apply H2.
    assert (He : In e (in_edges g u)) by (rewrite E; now left). apply in_edges_In in He. destruct He as [He <-].
    now apply in_map.
Qed.

Lemma root_spec g r : root g = Some r -> In r (node_ids g) /\ ~ In r (map e_dst (g_edges g)).
Proof.
  unfold root. destruct (root_candidates g) as [|r' [|? ?]] eqn:E; try discriminate. intros [= <-].
  apply root_candidates_In. rewrite E. now left.
Qed.

Lemma root_unique g r u : root g = Some r -> In u (node_ids g) -> ~ In u (map e_dst (g_edges g)) -> u = r.
Proof.
  unfold root. destruct (root_candidates g) as [|r' [|? ?]] eqn:E; try discriminate. intros [= <-] H1 H2.
  assert (H : In u (root_candidates g)) by now apply root_candidates_In. rewrite E in H. destruct H as [<-|[]]; auto.
Qed.

Lemma root_intro g r : wf g -> In r (node_ids g) -> ~ In r (map e_dst (g_edges g)) ->
  (forall u, In u (node_ids g) -> u <> r -> In u (map e_dst (g_edges g))) -> root g = Some r.
Proof.
  intros Hwf H1 H2 H3. unfold root.
  assert (Hnd : NoDup (root_candidates g)) by (apply NoDup_filter, wf_nodes; auto).
  assert (Hr : forall u, In u (root_candidates g) <-> u = r).
  { intros u. rewrite root_candidates_In. split.
    - intros [Ha Hb]. destruct (Nat.eq_dec u r); auto. exfalso. auto.
    - intros ->. auto. }
  destruct (root_candidates g) as [|a [|b l]].
  - exfalso. apply (proj2 (Hr r)); auto.
  - f_equal. apply Hr. now left.
  - exfalso. inversion Hnd; subst. apply H4. rewrite (proj1 (Hr a)), (proj1 (Hr b)); simpl; auto.
Qed.

Lemma list_rank_bound (rk : id -> nat) (l : list id) : exists M, forall x, In x l -> rk x <= M.
Proof.
  induction l as [|a l [M HM]]; [exists 0; simpl; tauto|].
  exists (max M (rk a)). intros x [<-|Hx]; [lia|]. specialize (HM x Hx). lia.
Qed.

(** In a valid (acyclic) circuit with a unique root every unit is reachable. *)
Lemma root_reaches_all g r : wf g -> acyclic g -> root g = Some r -> forall u, In u (node_ids g) -> reach g r u.
Proof.
  intros Hwf [rk Hrk] Hr. destruct (list_rank_bound rk (node_ids g)) as [M HM].
  assert (H : forall n u, M - rk u <= n -> In u (node_ids g) -> reach g r u).
  { induction n as [|n IH]; intros u Hn Hu.
    - destruct (in_dec Nat.eq_dec u (map e_dst (g_edges g))) as [Hd|Hd].
      + apply in_map_iff in Hd. destruct Hd as [e [<- He]]. pose proof (Hrk e He).
        pose proof (HM _ (wf_src g Hwf e He)). lia.
      + rewrite (root_unique _ _ _ Hr Hu Hd). apply reach_refl.
    - destruct (in_dec Nat.eq_dec u (map e_dst (g_edges g))) as [Hd|Hd].
      + apply in_map_iff in Hd. destruct Hd as [e [<- He]]. pose proof (Hrk e He).
        eapply reach_step; eauto. apply IH; [|now apply (wf_src g Hwf)].
        pose proof (HM _ (wf_src g Hwf e He)). lia.
      + rewrite (root_unique _ _ _ Hr Hu Hd). apply reach_refl. }
  intros u Hu. eapply H; eauto.
Qed.

Lemma tree_root g r : tree_shaped g r -> root g = Some r.
Proof. intros [Hwf [_ [Hin [_ [Hall Hr]]]]]. apply root_intro; auto. Qed.

Lemma tree_in_edges g r : tree_shaped g r -> forall u e e', In e (in_edges g u) -> In e' (in_edges g u) -> e = e'.
Proof.
  intros [_ [_ [_ [Hnd _]]]] u e e' H1 H2. apply in_edges_In in H1, H2. destruct H1 as [H1 <-], H2 as [H2 He].
  clear - Hnd H1 H2 He. induction (g_edges g) as [|a l IH]; simpl in *; [tauto|].
  inversion Hnd; subst. destruct H1 as [<-|H1], H2 as [<-|H2]; auto.
  - exfalso. apply H3. rewrite <- He. now apply in_map.
  - exfalso. apply H3. rewrite He. now apply in_map.
Qed.

(** Depth by climbing up the unique parent. *)
Fixpoint depth g (n : nat) (u : id) : nat :=
  match n with
  | 0 => 0
  | S n' => match in_edges g u with [] => 0 | e :: _ => S (depth g n' (e_src e)) end
  end.

Lemma depth_stable g (rk : id -> nat) M :
  (forall e, In e (g_edges g) -> rk (e_dst e) < rk (e_src e) /\ rk (e_src e) <= M) ->
  forall n m u, M - rk u < n -> M - rk u < m -> depth g n u = depth g m u.
Proof.
  intros H. induction n as [|n IH]; intros m u Hn Hm; [lia|]. destruct m as [|m]; [lia|]. simpl.
  destruct (in_edges g u) as [|e l] eqn:E; auto.
  assert (He : In e (in_edges g u)) by (rewrite E; now left). apply in_edges_In in He. destruct He as [He <-].
  destruct (H e He). f_equal. apply IH; lia.
Qed.

Lemma tree_graded g r : tree_shaped g r -> graded g r.
Proof.
  intros Ht. pose proof Ht as [Hwf [[rk Hrk] [Hin [Hnd [Hall Hr]]]]].
  destruct (list_rank_bound rk (node_ids g)) as [M HM].
  exists (depth g (S (S M))). split.
  - simpl. destruct (in_edges g r) as [|e l] eqn:E; auto. exfalso. apply Hr.
    assert (He : In e (in_edges g r)) by (rewrite E; now left). apply in_edges_In in He. destruct He as [He <-].
    now apply in_map.
  - intros e He _. change (depth g (S (S M)) (e_dst e)) with
      (match in_edges g (e_dst e) with [] => 0 | e' :: _ => S (depth g (S M) (e_src e')) end).
    destruct (in_edges g (e_dst e)) as [|e' l] eqn:E.
    + exfalso. assert (H : In e (in_edges g (e_dst e))) by (apply in_edges_In; auto). rewrite E in H. destruct H.
    + assert (e' = e).
      { eapply tree_in_edges; eauto; [rewrite E; now left|apply in_edges_In; auto]. }
      subst e'. f_equal. apply depth_stable with (rk := rk) (M := M).
      * intros e0 He0. split; [auto|]. apply HM. now apply (wf_src g Hwf).
      * lia.
      * lia.
Qed.

Lemma acyclic_no_self g : acyclic g -> forall e, In e (g_edges g) -> e_src e <> e_dst e.
Proof. intros [rk H] e He Heq. specialize (H e He). rewrite Heq in H. lia. Qed.

(** The order of [bottom_up] enumerates exactly the reachable units, once each. *)
Lemma bottom_up_spec g r : wf g -> root g = Some r ->
  exists ls, layers_from g r = Some ls /\ bottom_up g = Some (concat (rev ls)) /\ top_down g = Some (concat ls).
Proof.
  intros Hwf Hr. destruct (layers_from_total g r Hwf) as [ls Hls]; [now apply root_spec in Hr|].
  exists ls. unfold bottom_up, top_down, layers. rewrite Hr, Hls. auto.
Qed.

End Facts.
