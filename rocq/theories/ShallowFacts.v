(** * ShallowFacts: the graph operations of the shallow transformation, unit by unit *)
From Coq Require Import List Arith Bool Lia ZArith Reals Lra.
From Verif Require Import Num Graph GraphFacts Spec SpecFacts Circuit EvalFacts VarFacts Interval Dist Simplify SimplifyFacts
  TreeLocal NormalizeFacts Restrict Conditional Copy CopyFacts Heap Interaction InteractionFacts MountTree Shallow.
Import ListNotations.
Local Set Bullet Behavior "Strict Subproofs".
Local Open Scope nat_scope.

Section Ops.
Context {D : Type}.
Implicit Types g h : graph D.

(** The children of a unit with their log weights. *)
Definition out g (x : id) : list (id * option num) := map (fun e => (e_dst e, e_lw e)) (out_edges g x).

Lemma sub_out g x : subcircuits g x = map fst (out g x).
Proof. unfold subcircuits, out. rewrite map_map. reflexivity. Qed.

Lemma out_eq g h x : out g x = out h x -> out_edges g x = out_edges h x.
Proof.
  unfold out. intros E. assert (X : forall k : graph D, out_edges k x = map (fun p => mkEdge x (fst p) (snd p)) (map (fun e => (e_dst e, e_lw e)) (out_edges k x))).
  { intros k. rewrite map_map. symmetry. rewrite <- (map_id (out_edges k x)) at 2. apply map_ext_in. intros e He. apply out_src in He. destruct e. cbn in *. now subst. }
  rewrite (X g), (X h). now rewrite E.
Qed.

Lemma out_nodup g x : wf g -> NoDup (map fst (out g x)).
Proof. intros W. rewrite <- sub_out. now apply out_NoDup. Qed.

Lemma out_none g x : wf g -> ~ In x (node_ids g) -> out g x = [].
Proof. intros W H. unfold out. now rewrite out_outside. Qed.

Lemma sub_src g a b : wf g -> In b (subcircuits g a) -> In a (node_ids g).
Proof. intros W H. apply subcircuits_In in H. destruct H as (e & He & <- & <-). now apply (wf_src _ W). Qed.

Lemma sub_dst g a b : wf g -> In b (subcircuits g a) -> In b (node_ids g).
Proof. intros W H. apply subcircuits_In in H. destruct H as (e & He & <- & <-). now apply (wf_dst _ W). Qed.

Lemma orphan_true g v : orphan g v = true <-> forall a, ~ In v (subcircuits g a).
Proof.
  unfold orphan. split.
  - intros H a Ha. apply subcircuits_In in Ha. destruct Ha as (e & He & _ & Hd). assert (X : In e (in_edges g v)) by (apply in_edges_In; auto).
    destruct (in_edges g v); [contradiction|discriminate].
  - intros H. destruct (in_edges g v) as [|e l] eqn:E; [reflexivity|]. exfalso. assert (X : In e (in_edges g v)) by (rewrite E; now left).
    apply in_edges_In in X. destruct X as [X1 X2]. apply (H (e_src e)). apply subcircuits_In. eauto.
Qed.

Lemma orphan_false g v a : In v (subcircuits g a) -> orphan g v = false.
Proof. intros H. destruct (orphan g v) eqn:E; [|reflexivity]. exfalso. rewrite orphan_true in E. now apply (E a). Qed.

Lemma edge_data_out g u v lw : wf g -> In (v, lw) (out g u) -> edge_data g u v = Some lw.
Proof.
  intros W H. unfold out in H. apply in_map_iff in H. destruct H as (e & E & He). injection E as E1 E2. apply out_edges_In in He. destruct He as [He Hs].
  unfold edge_data. destruct (find (is_edge u v) (g_edges g)) as [e'|] eqn:F.
  - apply find_some in F. destruct F as [F1 F2]. unfold is_edge in F2. apply andb_true_iff in F2. destruct F2 as [F2 F3]. apply Nat.eqb_eq in F2, F3.
    assert (e' = e) as -> by (apply (SimplifyFacts.NoDup_map_unique (fun e => (e_src e, e_dst e)) (g_edges g)); auto; [apply W|congruence]). cbn. now rewrite E2.
  - exfalso. apply (find_none _ _ F) in He. unfold is_edge in He. rewrite Hs, E1, !Nat.eqb_refl in He. discriminate.
Qed.

(** ** Single operations *)
Lemma node_new g n k : wf g -> ~ In n (node_ids g) ->
  let g' := add_node g n k in
  wf g' /\ (forall x, In x (node_ids g') <-> In x (node_ids g) \/ x = n) /\ (forall x, out g' x = out g x) /\ out g' n = [] /\
  node_kind g' n = Some k /\ (forall x, x <> n -> node_kind g' x = node_kind g x).
Proof.
  intros W N. cbn zeta. split; [now apply add_node_wf|]. split; [apply add_node_ids|]. assert (O : forall x, out (add_node g n k) x = out g x) by (intros x; unfold out; now rewrite add_node_out).
  split; [exact O|]. split; [rewrite O; now apply out_none|]. split; [now apply add_node_kind_new|]. intros x. apply add_node_kind_other.
Qed.

Lemma edge_new g u v lw : wf g -> In u (node_ids g) -> In v (node_ids g) -> ~ In v (subcircuits g u) ->
  let g' := add_edge g u v lw in
  wf g' /\ (forall x, In x (node_ids g') <-> In x (node_ids g)) /\ out g' u = out g u ++ [(v, lw)] /\ (forall x, x <> u -> out g' x = out g x) /\
  (forall x, node_kind g' x = node_kind g x).
Proof.
  intros W Hu Hv N. cbn zeta. split; [now apply add_edge_wf|]. split; [intros x; now rewrite add_edge_ids|]. split; [|split].
  - unfold out. rewrite add_edge_out, Nat.eqb_refl, addl_absent by exact N. now rewrite map_app.
  - intros x Hx. unfold out. rewrite add_edge_out. destruct (Nat.eqb_spec x u); [contradiction|reflexivity].
  - intros x. apply add_edge_kind.
Qed.

Lemma edge_gone g u v : wf g -> In v (subcircuits g u) -> exists g', remove_edge g u v = Some g' /\
  wf g' /\ (forall x, In x (node_ids g') <-> In x (node_ids g)) /\ out g' u = filter (fun p => negb (fst p =? v)) (out g u) /\ (forall x, x <> u -> out g' x = out g x) /\
  (forall x, node_kind g' x = node_kind g x).
Proof.
  intros W H. assert (E : existsb (is_edge u v) (g_edges g) = true).
  { apply subcircuits_In in H. destruct H as (e & He & E1 & E2). apply existsb_exists. exists e. split; [exact He|]. unfold is_edge. now rewrite E1, E2, !Nat.eqb_refl. }
  destruct (remove_edge g u v) as [g'|] eqn:R; [|unfold remove_edge in R; rewrite E in R; discriminate]. exists g'. split; [reflexivity|].
  destruct (remove_edge_spec _ _ _ _ R) as (O & Nn & Wf). split; [auto|]. split; [unfold node_ids; now rewrite Nn|]. split; [|split].
  - unfold out. rewrite O, Nat.eqb_refl. clear. induction (out_edges g u) as [|e l IH]; [reflexivity|]. cbn. destruct (e_dst e =? v); cbn; [exact IH|]. f_equal. exact IH.
  - intros x Hx. unfold out. rewrite O. destruct (Nat.eqb_spec x u); [contradiction|reflexivity].
  - intros x. unfold node_kind. now rewrite Nn.
Qed.

(** Removing a unit nobody points to. *)
Lemma node_gone g n : wf g -> In n (node_ids g) -> (forall a, ~ In n (subcircuits g a)) ->
  remove_node g n = Some (drop_node g n) /\
  let g' := drop_node g n in
  wf g' /\ (forall x, In x (node_ids g') <-> In x (node_ids g) /\ x <> n) /\ (forall x, x <> n -> out g' x = out g x) /\ (forall x, x <> n -> node_kind g' x = node_kind g x).
Proof.
  intros W Hn No. split; [unfold remove_node; now rewrite (proj2 (has_node_In g n) Hn)|]. cbn zeta. split; [rewrite drop_keepN; now apply keepN_wf|].
  split; [apply drop_node_ids|]. split; [|intros x Hx; now apply drop_node_kind].
  intros x Hx. unfold out. rewrite drop_keepN, keepN_out by (now apply negb_true_iff, Nat.eqb_neq). f_equal. apply filter_all.
  intros e He. apply negb_true_iff, Nat.eqb_neq. intros E. apply (No x). unfold subcircuits. apply in_map_iff. eauto.
Qed.

Lemma filter_middle {B} (X Y : list (id * B)) a : NoDup (map fst (X ++ a :: Y)) -> filter (fun p => negb (fst p =? fst a)) (X ++ a :: Y) = X ++ Y.
Proof.
  intros H. rewrite filter_app. cbn [filter]. rewrite Nat.eqb_refl. cbn [negb]. rewrite map_app in H. cbn [map] in H. apply NoDup_remove in H. destruct H as [_ H].
  f_equal; apply filter_all; intros p Hp; apply negb_true_iff, Nat.eqb_neq; intros E; apply H; apply in_app_iff; [left|right]; rewrite <- E; now apply in_map.
Qed.

(** ** Several edges from one unit *)
Lemma edges_new u es : forall g, wf g -> In u (node_ids g) -> (forall q, In q es -> In (fst q) (node_ids g)) -> NoDup (map fst es) -> (forall q, In q es -> ~ In (fst q) (subcircuits g u)) ->
  let g' := fold_left (fun g q => add_edge g u (fst q) (snd q)) es g in
  wf g' /\ (forall x, In x (node_ids g') <-> In x (node_ids g)) /\ out g' u = out g u ++ es /\ (forall x, x <> u -> out g' x = out g x) /\ (forall x, node_kind g' x = node_kind g x).
Proof.
  induction es as [|[v lw] es IH]; intros g W Hu Hn ND Hd; cbn zeta; cbn [fold_left].
  - rewrite app_nil_r. repeat split; auto; apply W.
  - cbn [map] in ND. inversion ND as [|? ? N1 N2]; subst. destruct (edge_new g u v lw W Hu) as (W1 & I1 & O1 & F1 & K1); [apply (Hn (v, lw)); now left|apply (Hd (v, lw)); now left|].
    cbn [fst snd]. destruct (IH (add_edge g u v lw) W1) as (W2 & I2 & O2 & F2 & K2).
    + now apply I1.
    + intros q Hq. apply I1, Hn. now right.
    + exact N2.
    + intros q Hq. rewrite sub_out, O1, map_app, in_app_iff, <- sub_out. cbn. intros [H|[H|[]]]; [apply (Hd q); [now right|exact H]|]. apply N1. rewrite H. now apply in_map.
    + split; [exact W2|]. split; [intros x; rewrite I2; apply I1|]. split; [rewrite O2, O1, <- app_assoc; reflexivity|]. split; [intros x Hx; rewrite F2, F1; auto|]. intros x. rewrite K2. apply K1.
Qed.

Lemma fold_left_map {A B C} (f : A -> B -> A) (h : C -> B) l : forall a, fold_left f (map h l) a = fold_left (fun a c => f a (h c)) l a.
Proof. induction l as [|c l IH]; intros a; [reflexivity|]. cbn. apply IH. Qed.

(** ** Pruning *)
Lemma prune_kept f vs g : (forall v, In v vs -> exists a, In v (subcircuits g a)) -> foldM (fun g v => if orphan g v then prune f v g else Some g) vs g = Some g.
Proof.
  induction vs as [|v vs IH]; intros H; [reflexivity|]. cbn [foldM]. destruct (H v (or_introl eq_refl)) as [a Ha]. rewrite (orphan_false _ _ _ Ha). apply IH. intros w Hw. apply H. now right.
Qed.

(** A unit whose children have other parents. *)
Lemma prune_one f g s : wf g -> In s (node_ids g) -> (forall a, ~ In s (subcircuits g a)) -> (forall v, In v (subcircuits g s) -> exists a, a <> s /\ In v (subcircuits g a)) ->
  prune (S f) s g = Some (drop_node g s).
Proof.
  intros W Hs No Hk. cbn [prune]. destruct (node_gone g s W Hs No) as (E & W' & _ & O & _). rewrite E. apply prune_kept. intros v Hv. destruct (Hk v Hv) as (a & Ha & H). exists a.
  rewrite sub_out, O, <- sub_out by exact Ha. exact H.
Qed.

(** What remains after removing some units that nobody else points to. *)
Record without (gone : list id) g h : Prop := {
  wo_wf : wf h;
  wo_nodes : forall x, In x (node_ids h) <-> In x (node_ids g) /\ ~ In x gone;
  wo_out : forall x, ~ In x gone -> out h x = out g x;
  wo_kind : forall x, ~ In x gone -> node_kind h x = node_kind g x
}.

Lemma without_sub gone g h a v : wf g -> without gone g h -> (In v (subcircuits h a) <-> In v (subcircuits g a) /\ ~ In a gone).
Proof.
  intros W H. split.
  - intros Hv. assert (Ha : ~ In a gone) by (apply (sub_src _ _ _ (wo_wf _ _ _ H)), (wo_nodes _ _ _ H) in Hv; tauto). split; [|exact Ha].
    rewrite sub_out, (wo_out _ _ _ H a Ha), <- sub_out in Hv. exact Hv.
  - intros [Hv Ha]. rewrite sub_out, (wo_out _ _ _ H a Ha), <- sub_out. exact Hv.
Qed.

Lemma without_one g s : wf g -> In s (node_ids g) -> (forall a, ~ In s (subcircuits g a)) -> without [s] g (drop_node g s).
Proof.
  intros W Hs No. destruct (node_gone g s W Hs No) as (_ & W' & I' & O' & K'). constructor; auto.
  - intros x. rewrite I'. cbn. intuition congruence.
  - intros x Hx. apply O'. cbn in Hx. intuition congruence.
  - intros x Hx. apply K'. cbn in Hx. intuition congruence.
Qed.

Lemma without_trans X Y g h k : without X g h -> without Y h k -> without (X ++ Y) g k.
Proof.
  intros [W1 N1 O1 K1] [W2 N2 O2 K2]. constructor; auto.
  - intros x. rewrite N2, N1, in_app_iff. tauto.
  - intros x Hx. rewrite in_app_iff in Hx. rewrite O2, O1; tauto.
  - intros x Hx. rewrite in_app_iff in Hx. rewrite K2, K1; tauto.
Qed.

(** A unit whose children have no other parents, but whose grandchildren have. *)
Lemma prune_two f g s : wf g -> In s (node_ids g) -> (forall a, ~ In s (subcircuits g a)) ->
  (forall p a, In p (subcircuits g s) -> In p (subcircuits g a) -> a = s) ->
  (forall p v, In p (subcircuits g s) -> In v (subcircuits g p) -> exists a, a <> s /\ ~ In a (subcircuits g s) /\ In v (subcircuits g a)) ->
  exists h, prune (S (S f)) s g = Some h /\ without (s :: subcircuits g s) g h.
Proof.
  intros W Hs No Hp Hk. pose proof (without_one g s W Hs No) as H1. cbn [prune]. destruct (node_gone g s W Hs No) as (E & _). rewrite E.
  assert (X : forall ps done h, subcircuits g s = done ++ ps -> without (s :: done) g h ->
    exists h', foldM (fun g v => if orphan g v then prune (S f) v g else Some g) ps h = Some h' /\ without (s :: done ++ ps) g h').
  { induction ps as [|p ps IH]; intros done h Ed Hh; [exists h; rewrite app_nil_r; auto|]. cbn [foldM].
    assert (Pin : In p (subcircuits g s)) by (rewrite Ed; apply in_app_iff; right; now left).
    assert (Pnd : ~ In p done). { pose proof (out_NoDup g s W) as ND. fold (subcircuits g s) in ND. rewrite Ed in ND. apply NoDup_remove_2 in ND. rewrite in_app_iff in ND. tauto. }
    assert (Ps : p <> s) by (intros ->; apply (No s Pin)).
    assert (Pn : forall a, ~ In p (subcircuits h a)).
    { intros a Ha. apply (without_sub _ _ _ _ _ W Hh) in Ha. destruct Ha as [Ha1 Ha2]. apply Ha2. left. symmetry. now apply (Hp p a). }
    assert (Ph : In p (node_ids h)). { apply (wo_nodes _ _ _ Hh). split; [eapply sub_dst; eauto|]. intros [H|H]; congruence. }
    rewrite (proj2 (orphan_true h p) Pn). rewrite prune_one; auto; [|apply Hh|].
    - replace (s :: done ++ p :: ps) with (s :: (done ++ [p]) ++ ps) by (now rewrite <- app_assoc). apply IH; [now rewrite <- app_assoc|].
      apply (without_trans (s :: done) [p] g h). { exact Hh. } apply without_one; auto. apply Hh.
    - intros v Hv. apply (without_sub _ _ _ _ _ W Hh) in Hv. destruct Hv as [Hv _]. destruct (Hk p v Pin Hv) as (a & A1 & A2 & A3). exists a. split; [intros ->; contradiction|].
      apply (without_sub _ _ _ _ _ W Hh). split; [exact A3|]. intros [H|H]; [congruence|]. apply A2. rewrite Ed. apply in_app_iff. auto. }
  destruct (X (subcircuits g s) [] (drop_node g s) eq_refl H1) as (h & E' & Hh). eauto.
Qed.

(** ** Combinations *)
Lemma combination_spec (ls : id -> list id) p combo : forall g, wf g -> In p (node_ids g) ->
  (forall u, In u combo -> u <> p /\ out g u = map (fun l => (l, None)) (ls u)) -> NoDup (flat_map ls combo) -> (forall l, In l (flat_map ls combo) -> ~ In l (subcircuits g p)) ->
  let g' := fold_left (fun g under => fold_left (fun g e => add_edge g p (e_dst e) (e_lw e)) (out_edges g under) g) combo g in
  wf g' /\ (forall x, In x (node_ids g') <-> In x (node_ids g)) /\ out g' p = out g p ++ map (fun l => (l, None)) (flat_map ls combo) /\ (forall x, x <> p -> out g' x = out g x) /\
  (forall x, node_kind g' x = node_kind g x).
Proof.
  induction combo as [|u combo IH]; intros g W Hp Hu ND Hd; cbn zeta; cbn [fold_left flat_map map].
  - rewrite app_nil_r. repeat split; auto; apply W.
  - destruct (Hu u (or_introl eq_refl)) as [Hup Ou]. cbn [flat_map] in ND, Hd.
    assert (Ef : fold_left (fun g e => add_edge g p (e_dst e) (e_lw e)) (out_edges g u) g = fold_left (fun g q => add_edge g p (fst q) (snd q)) (map (fun l => (l, None)) (ls u)) g).
    { rewrite <- Ou. unfold out. now rewrite fold_left_map. }
    rewrite Ef. clear Ef.
    destruct (edges_new p (map (fun l => (l, @None num)) (ls u)) g W Hp) as (W1 & I1 & O1 & F1 & K1).
    + intros q Hq. rewrite <- Ou in Hq. apply (sub_dst g u _ W). rewrite sub_out. now apply in_map.
    + rewrite map_map. cbn. rewrite map_id. clear - ND. induction (ls u) as [|a m IH]; [constructor|]. cbn in ND. inversion ND; subst. constructor; [intros X; apply H1, in_app_iff; auto|auto].
    + intros q Hq. apply in_map_iff in Hq. destruct Hq as (a & <- & Ha). apply Hd. apply in_app_iff. auto.
    + set (g1 := fold_left (fun g q => add_edge g p (fst q) (snd q)) (map (fun l => (l, None)) (ls u)) g) in *.
      assert (ND2 : NoDup (flat_map ls combo)) by (clear - ND; induction (ls u) as [|a m IH]; [exact ND|]; cbn in ND; inversion ND; auto).
      destruct (IH g1 W1) as (W2 & I2 & O2 & F2 & K2).
      * now apply I1.
      * intros v Hv. destruct (Hu v (or_intror Hv)) as [V1 V2]. split; [exact V1|]. rewrite F1; auto.
      * exact ND2.
      * intros l Hl. rewrite sub_out, O1, map_app, in_app_iff, <- sub_out, map_map. cbn. rewrite map_id. intros [H|H]; [apply (Hd l); [apply in_app_iff; auto|exact H]|].
        clear - ND Hl H. induction (ls u) as [|a m IH]; [destruct H|]. cbn in ND. inversion ND as [|? ? N1 N2]; subst. destruct H as [->|H]; [apply N1, in_app_iff; auto|auto].
      * split; [exact W2|]. split; [intros x; rewrite I2; apply I1|]. split; [rewrite O2, O1, <- app_assoc, map_app; reflexivity|]. split; [intros x Hx; rewrite F2, F1; auto|]. intros x. rewrite K2. apply K1.
Qed.
End Ops.
