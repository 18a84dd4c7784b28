(** * MoveFacts: what translating and scaling do to the objects of a circuit, and to its leaves' densities and masses

    Proof file for C29 and C30. *)
From Coq Require Import List Arith Bool Lia ZArith Reals Lra.
From Verif Require Import Num Graph GraphFacts Spec SpecFacts Circuit EvalFacts Interval GaussInt Dist DistFacts Simplify Conditional
  Rename Copy CopyFacts Heap HeapFacts HeapOps.
Import ListNotations.
Local Open Scope nat_scope.

(** ** Mapping the leaves of circuits and trees *)

Definition kmap {D E} (F : D -> E) (k : ukind D) : ukind E :=
  match k with ULeaf d => ULeaf (F d) | USum => USum | UProd => UProd end.

Definition gmap {D E} (F : D -> E) (g : graph D) : graph E :=
  mkGraph (map (fun p => (fst p, kmap F (snd p))) (g_nodes g)) (g_edges g).

Fixpoint tmap {D E} (F : D -> E) (t : pc D) : pc E :=
  match t with
  | PLeaf d => PLeaf (F d)
  | PSum l => PSum (map (fun wt => (fst wt, tmap F (snd wt))) l)
  | PProd l => PProd (map (tmap F) l)
  end.

Section GMap.
Context {D E : Type} (F : D -> E).

Lemma gmap_ids g : node_ids (gmap F g) = node_ids g.
Proof. unfold node_ids, gmap. cbn. rewrite map_map. apply map_ext. now intros []. Qed.

Lemma gmap_kind g u : node_kind (gmap F g) u = match node_kind g u with None => None | Some k => Some (kmap F k) end.
Proof.
  unfold node_kind, gmap. cbn. induction (g_nodes g) as [|[x k] l IH]; [reflexivity|].
  cbn. destruct (x =? u); [reflexivity|exact IH].
Qed.

Lemma gmap_reach g u v : reach g u v -> reach (gmap F g) u v.
Proof. induction 1; econstructor; eauto. Qed.

Lemma gmap_reach' g u v : reach (gmap F g) u v -> reach g u v.
Proof. induction 1; econstructor; eauto. Qed.

Lemma gmap_wf g : wf g -> wf (gmap F g).
Proof. intros []. constructor; rewrite ?gmap_ids; auto. Qed.

Lemma gmap_root g : root (gmap F g) = root g.
Proof. unfold root, root_candidates. rewrite gmap_ids. reflexivity. Qed.

Lemma gmap_graded g r : graded g r -> graded (gmap F g) r.
Proof. intros (lv & H0 & H). exists lv. split; [auto|]. intros e He Hr. apply H; auto. now apply gmap_reach'. Qed.

Lemma gmap_leaves_terminal g : leaves_terminal g -> leaves_terminal (gmap F g).
Proof.
  intros H e d He. rewrite gmap_kind. destruct (node_kind g (e_src e)) as [[d'| |]|] eqn:K; cbn; try discriminate.
  intros _. exact (H e d' He K).
Qed.

Lemma gmap_unfolds g : forall u t, unfolds g u t -> unfolds (gmap F g) u (tmap F t).
Proof.
  refine (unfolds_ind' g _ _ _ _).
  - intros u d K. constructor. rewrite gmap_kind, K. reflexivity.
  - intros u ts K N IH. cbn. constructor; [rewrite gmap_kind, K; reflexivity|exact N|].
    change (out_edges (gmap F g) u) with (out_edges g u).
    clear K N. induction IH as [|e wt es ts (A & _ & B) _ IH]; cbn; constructor; auto.
  - intros u ts K IH. cbn. constructor; [rewrite gmap_kind, K; reflexivity|].
    change (out_edges (gmap F g) u) with (out_edges g u).
    clear K. induction IH as [|e t es ts [_ A] _ IH]; cbn; constructor; auto.
Qed.

Lemma tmap_all_leaves (P : E -> Prop) t : all_leaves P (tmap F t) <-> all_leaves (fun d => P (F d)) t.
Proof.
  induction t as [d|l IH|l IH] using pc_ind'; cbn [tmap all_leaves]; [reflexivity| |];
    rewrite map_map; induction IH as [|x l Hx _ IHl]; cbn in *; try tauto; rewrite IHl, Hx; tauto.
Qed.

Lemma tmap_semN (val : E -> num) t : semN val (tmap F t) = semN (fun d => val (F d)) t.
Proof.
  induction t as [d|l IH|l IH] using pc_ind'; cbn [tmap semN]; [reflexivity| |]; f_equal; rewrite map_map; apply map_ext_in;
    rewrite Forall_forall in IH; intros x Hx; cbn; now rewrite (IH x Hx).
Qed.

Lemma tmap_semR (val : E -> R) t : semR val (tmap F t) = semR (fun d => val (F d)) t.
Proof.
  induction t as [d|l IH|l IH] using pc_ind'; cbn [tmap semR]; [reflexivity| |]; f_equal; rewrite map_map; apply map_ext_in;
    rewrite Forall_forall in IH; intros x Hx; cbn; now rewrite (IH x Hx).
Qed.

Lemma tmap_all_sums (P : list num -> Prop) t : all_sums P t -> all_sums P (tmap F t).
Proof.
  induction t as [d|l IH|l IH] using pc_ind'; cbn [tmap all_sums]; auto;
    rewrite !fold_and_Forall, ?Forall_map; rewrite Forall_forall in IH.
  - rewrite !map_map. cbn. intros [A B]. split; [exact A|]. rewrite Forall_forall in *. intros x Hx. cbn. apply IH; auto.
  - rewrite !Forall_forall. intros A x Hx. apply IH; auto.
Qed.

Context (vD : D -> list nat) (vE : E -> list nat).

Lemma tmap_mentions t v : (forall d, vE (F d) = vD d) -> mentions vE (tmap F t) v <-> mentions vD t v.
Proof.
  intros HF. induction t as [d|l IH|l IH] using pc_ind'; cbn [tmap mentions]; [now rewrite HF| |];
    rewrite map_map; induction IH as [|x l Hx _ IHl]; cbn in *; try tauto; rewrite IHl, Hx; tauto.
Qed.

Lemma tmap_smooth t : (forall d, vE (F d) = vD d) -> smooth vD t -> smooth vE (tmap F t).
Proof.
  intros HF. induction t as [d|l IH|l IH] using pc_ind'; auto.
  - intros [A B]. change (smooth vE (PSum (map (fun wt => (fst wt, tmap F (snd wt))) l))). split.
    + intros v Hv. change (PSum (map (fun wt => (fst wt, tmap F (snd wt))) l)) with (tmap F (PSum l)) in Hv.
      apply tmap_mentions in Hv; [|exact HF]. specialize (A v Hv). rewrite map_map. cbn.
      rewrite fold_and_Forall in *. rewrite Forall_forall in *. intros x Hx. apply tmap_mentions; auto.
    + rewrite map_map. cbn. rewrite fold_and_Forall in *. rewrite Forall_forall in *. intros x Hx. apply IH; auto.
  - cbn. rewrite map_map. rewrite !fold_and_Forall, !Forall_forall in *. intros A x Hx. apply IH; auto.
Qed.
End GMap.

(** ** The loop over the leaves *)

(** The class and variable of a discrete object never change; a symbolic one is not changed at all. *)
Definition keeps (d d' : dist) : Prop :=
  match d with
  | DSym _ _ => d' = d
  | DInt v _ => exists q', d' = DInt v q'
  | _ => True
  end.

Lemma move_read f H a d d' : heap_ok H -> read_dist H a = Some d -> f d = Some d' -> keeps d d' ->
  exists H', h_dist_move f H a = Some H' /\ heap_ok H' /\ h_units H' = h_units H /\ read_dist H' a = Some d' /\
    (forall b, b <> a -> b < List.length (h_dists H) -> read_dist H' b = read_dist H b) /\
    List.length (h_dists H') = List.length (h_dists H).
Proof.
  intros O E F K. unfold h_dist_move, read_dist in *.
  destruct (nth_error (h_dists H) a) as [[d0|s v p]|] eqn:Ea; [| |discriminate].
  - injection E as ->. rewrite F. eexists. split; [reflexivity|].
    assert (La : a < List.length (h_dists H)) by (apply nth_error_Some; congruence).
    split; [|split; [reflexivity|split; [|split]]]; cbn.
    + destruct O as [A B]. split; cbn.
      * intros s v p b Eb. destruct (Nat.eq_dec a b) as [->|N].
        -- rewrite set_nth_same in Eb by exact La. discriminate.
        -- rewrite set_nth_other in Eb by exact N. eauto.
      * intros u b Eb. rewrite set_nth_length. eauto.
    + now rewrite set_nth_same.
    + intros b N _. now rewrite set_nth_other by congruence.
    + apply set_nth_length.
  - destruct (nth_error (h_dicts H) p) as [q|] eqn:Ep; [|discriminate]. injection E as <-. rewrite F.
    assert (La : a < List.length (h_dists H)) by (apply nth_error_Some; congruence).
    destruct s; cbn in K.
    + subst d'. exists H. repeat split; auto; try apply O. now rewrite Ea, Ep.
    + destruct K as [q' ->]. cbn [alloc_dict]. eexists. split; [reflexivity|].
      split; [|split; [reflexivity|split; [|split]]]; cbn.
      * destruct O as [A B]. split; cbn.
        -- intros s1 v1 p1 b Eb. rewrite app_length. destruct (Nat.eq_dec a b) as [->|N].
           ++ rewrite set_nth_same in Eb by exact La. injection Eb as <- <- <-. cbn. lia.
           ++ rewrite set_nth_other in Eb by exact N. specialize (A _ _ _ _ Eb). lia.
        -- intros u b Eb. rewrite set_nth_length. eauto.
      * rewrite set_nth_same by exact La. rewrite nth_error_app2 by lia. now rewrite Nat.sub_diag.
      * intros b N Lb. rewrite set_nth_other by congruence.
        destruct (nth_error (h_dists H) b) as [[x|s1 v1 p1]|] eqn:Eb; auto.
        rewrite nth_error_app1; auto. exact (proj1 O _ _ _ _ Eb).
      * apply set_nth_length.
Qed.

Lemma each_leaf_read f (rg : graph addr) ls : forall H, heap_ok H -> NoDup ls ->
  (forall u, In u ls -> exists a d d', node_kind rg u = Some (ULeaf a) /\ read_dist H a = Some d /\ f d = Some d' /\ keeps d d') ->
  (forall u v a, In u ls -> In v ls -> node_kind rg u = Some (ULeaf a) -> node_kind rg v = Some (ULeaf a) -> u = v) ->
  h_units (h_each_leaf (h_dist_move f) H rg ls) = h_units H /\
  (forall u a d, In u ls -> node_kind rg u = Some (ULeaf a) -> read_dist H a = Some d ->
     read_dist (h_each_leaf (h_dist_move f) H rg ls) a = f d) /\
  (forall b, (forall u, In u ls -> node_kind rg u <> Some (ULeaf b)) -> b < List.length (h_dists H) ->
     read_dist (h_each_leaf (h_dist_move f) H rg ls) b = read_dist H b).
Proof.
  induction ls as [|u ls IH]; intros H O N T I.
  - cbn. split; [reflexivity|split; [intros u a d []|auto]].
  - destruct (T u (or_introl eq_refl)) as (a & d & d' & Ku & Ru & Fu & Kd).
    destruct (move_read f H a d d' O Ru Fu Kd) as (H1 & E1 & O1 & U1 & R1 & S1 & L1).
    cbn [h_each_leaf]. rewrite Ku, E1. inversion N as [|x y Nu N']. subst x y.
    assert (D : forall v b, In v ls -> node_kind rg v = Some (ULeaf b) -> b <> a).
    { intros v b Hv Kv ->. apply Nu. rewrite (I u v a); auto; [now left|now right]. }
    assert (LB : forall b e, read_dist H b = Some e -> b < List.length (h_dists H)).
    { intros b e X. apply nth_error_Some. unfold read_dist in X. intros Y. now rewrite Y in X. }
    destruct (IH H1 O1 N') as (HU & HR & HO).
    { intros v Hv. destruct (T v (or_intror Hv)) as (b & e & e' & Kv & Rv & Fv & Kv').
      exists b, e, e'. repeat split; auto. rewrite S1; auto; [exact (D v b Hv Kv)|eauto]. }
    { intros v w b Hv Hw. apply I; now right. }
    split; [congruence|split].
    + intros v b e [<-|Hv] Kv Rv.
      * rewrite Ku in Kv. injection Kv as <-. rewrite Ru in Rv. injection Rv as <-. rewrite Fu, <- R1. apply HO.
        -- intros v Hv X. exact (D v a Hv X eq_refl).
        -- rewrite L1. eauto.
      * apply (HR v b e Hv Kv). rewrite S1; auto; [exact (D v b Hv Kv)|eauto].
    + intros b Nb Lb. rewrite HO.
      * apply S1; auto. intros ->. apply (Nb u); [now left|exact Ku].
      * intros v Hv. apply Nb. now right.
      * lia.
Qed.

(** ** The leaves of a circuit *)

(** No two leaf units of the circuit hold the same distribution object. *)
Definition unshared (H : heap) (c : circ) : Prop :=
  forall u v a, In u (c_units c) -> In v (c_units c) ->
    nth_error (h_units H) u = Some (ULeaf a) -> nth_error (h_units H) v = Some (ULeaf a) -> u = v.

Lemma ref_ids H c : node_ids (ref_graph H c) = c_units c.
Proof. unfold node_ids, ref_graph. cbn. rewrite map_map. cbn. apply map_id. Qed.

Lemma ref_kind H c u : circ_ok H c -> In u (c_units c) -> node_kind (ref_graph H c) u = nth_error (h_units H) u.
Proof.
  intros (O & I & N) Hu. rewrite (node_kind_NoDup _ u (nth u (h_units H) USum)).
  - symmetry. apply nth_error_nth'. exact (I u Hu).
  - now rewrite ref_ids.
  - cbn. apply in_map_iff. eauto.
Qed.

Lemma view_shape H c g : circ_ok H c -> view H c = Some g ->
  node_ids g = c_units c /\ g_edges g = c_edges c /\
  forall u, In u (c_units c) -> exists k k', nth_error (h_units H) u = Some k /\ kview H k = Some k' /\ node_kind g u = Some k'.
Proof.
  intros (O & I & N) V. unfold view in V. destruct (mapM (unit_view H) (c_units c)) as [ns|] eqn:M; [|discriminate].
  injection V as <-. apply mapM_Forall2 in M.
  assert (IDS : map fst ns = c_units c).
  { clear N I. induction M as [|u p us ns Ep _ IH]; [reflexivity|]. cbn. rewrite IH. f_equal.
    unfold unit_view in Ep. destruct (nth_error (h_units H) u) as [[a| |]|]; try discriminate; try (injection Ep as <-; reflexivity).
    destruct (read_dist H a); [|discriminate]. injection Ep as <-. reflexivity. }
  split; [exact IDS|split; [reflexivity|]]. intros u Hu.
  assert (P : exists p, In p ns /\ unit_view H u = Some p).
  { clear IDS N I. induction M as [|v p us ns Ep _ IH]; [destruct Hu|]. destruct Hu as [->|Hu]; [exists p; split; [now left|auto]|].
    destruct (IH Hu) as (q & Hq & Eq). exists q. split; [now right|auto]. }
  destruct P as ([w k'] & Hp & Ep). destruct (nth_error (h_units H) u) as [k|] eqn:Ek; [|unfold unit_view in Ep; rewrite Ek in Ep; discriminate].
  rewrite (unit_view_kview _ _ _ Ek) in Ep. destruct (kview H k) as [k1|] eqn:E1; [|discriminate]. injection Ep as <- <-.
  exists k, k1. repeat split; auto. apply node_kind_NoDup; cbn; [unfold node_ids; cbn; now rewrite IDS|exact Hp].
Qed.

Lemma leaves_all H c g r : circ_ok H c -> view H c = Some g -> wf g -> acyclic g -> root g = Some r ->
  (forall d, node_kind g r <> Some (ULeaf d)) ->
  exists ls, circuit_leaves (ref_graph H c) = Some ls /\ NoDup ls /\
    forall u, In u ls <-> In u (c_units c) /\ exists a, nth_error (h_units H) u = Some (ULeaf a).
Proof.
  intros K V W A R NL. destruct (view_shape H c g K V) as (IDS & ES & KS).
  assert (RI : node_ids (ref_graph H c) = node_ids g) by (rewrite ref_ids; auto).
  assert (RE : g_edges (ref_graph H c) = g_edges g) by (symmetry; exact ES).
  assert (W' : wf (ref_graph H c)) by (destruct W; constructor; rewrite ?RI, ?RE; auto).
  assert (A' : acyclic (ref_graph H c)) by (destruct A as [rk HA]; exists rk; rewrite RE; exact HA).
  assert (R' : root (ref_graph H c) = Some r).
  { rewrite <- R. unfold root, root_candidates. rewrite RI. unfold in_edges. rewrite RE. reflexivity. }
  assert (Hr : In r (c_units c)) by (rewrite <- IDS; apply root_spec; exact R).
  assert (NR : forall a, nth_error (h_units H) r <> Some (ULeaf a)).
  { intros a X. destruct (KS r Hr) as (k & k' & E1 & E2 & E3). rewrite X in E1. injection E1 as <-. cbn in E2.
    destruct (read_dist H a) as [d|]; [|discriminate]. injection E2 as <-. exact (NL d E3). }
  destruct (layers_from_total (ref_graph H c) r W') as [lv L]; [now rewrite ref_ids|].
  unfold circuit_leaves. rewrite R', (ref_kind H c r K Hr). unfold reachable_list. rewrite L.
  assert (X : exists ls, (match nth_error (h_units H) r with
    | Some (ULeaf _) => Some []
    | _ => Some (filter (fun u => match node_kind (ref_graph H c) u with Some (ULeaf _) => true | _ => false end)
                        (filter (fun u => negb (u =? r)) (concat lv))) end) = Some ls /\
    ls = filter (fun u => match node_kind (ref_graph H c) u with Some (ULeaf _) => true | _ => false end)
                        (filter (fun u => negb (u =? r)) (concat lv))).
  { eexists. split; [|reflexivity]. destruct (nth_error (h_units H) r) as [[a| |]|] eqn:E; try reflexivity. destruct (NR a eq_refl). }
  destruct X as (ls & -> & ->). eexists. split; [reflexivity|]. split.
  - apply NoDup_filter, NoDup_filter. eapply layers_from_NoDup; eauto.
  - intros u. rewrite !filter_In, (layers_from_In _ _ _ L). split.
    + intros [[Hu _] B]. destruct (node_kind (ref_graph H c) u) as [[a| |]|] eqn:E; try discriminate.
      assert (Hu' : In u (c_units c)) by (rewrite <- (ref_ids H c); eapply node_kind_ids; eauto).
      split; [exact Hu'|]. exists a. now rewrite <- (ref_kind H c u K Hu').
    + intros [Hu [a Ea]]. rewrite (ref_kind H c u K Hu), Ea. split; [|reflexivity]. split.
      * apply (root_reaches_all _ r W' A' R'). now rewrite ref_ids.
      * apply negb_true_iff, Nat.eqb_neq. intros ->. exact (NR a Ea).
Qed.

Definition the {A} (f : A -> option A) (d : A) : A := match f d with Some d' => d' | None => d end.

(** The object after the loop over all leaves is the circuit with every leaf's distribution replaced. *)
Lemma each_leaf_view f H c g r : circ_ok H c -> unshared H c -> view H c = Some g -> wf g -> acyclic g -> root g = Some r ->
  (forall d, node_kind g r <> Some (ULeaf d)) ->
  (forall u d, node_kind g u = Some (ULeaf d) -> exists d', f d = Some d' /\ keeps d d') ->
  exists ls, circuit_leaves (ref_graph H c) = Some ls /\
    view (h_each_leaf (h_dist_move f) H (ref_graph H c) ls) c = Some (gmap (the f) g).
Proof.
  intros K US V W A R NL FD. destruct (leaves_all H c g r K V W A R NL) as (ls & EL & ND & IN).
  destruct (view_shape H c g K V) as (IDS & ES & KS).
  exists ls. split; [exact EL|].
  assert (LK : forall u a, In u (c_units c) -> nth_error (h_units H) u = Some (ULeaf a) ->
    exists d d', read_dist H a = Some d /\ node_kind g u = Some (ULeaf d) /\ f d = Some d' /\ keeps d d').
  { intros u a Hu Ea. destruct (KS u Hu) as (k & k' & E1 & E2 & E3). rewrite Ea in E1. injection E1 as <-. cbn in E2.
    destruct (read_dist H a) as [d|] eqn:Rd; [|discriminate]. injection E2 as <-.
    destruct (FD u d E3) as (d' & F' & K'). exists d, d'. auto. }
  destruct (each_leaf_read f (ref_graph H c) ls H (proj1 K) ND) as (HU & HR & HO).
  { intros u Hu. apply IN in Hu. destruct Hu as [Hu [a Ea]]. destruct (LK u a Hu Ea) as (d & d' & X1 & X2 & X3 & X4).
    exists a, d, d'. rewrite (ref_kind H c u K Hu). auto. }
  { intros u v a Hu Hv. apply IN in Hu, Hv. destruct Hu as [Hu _], Hv as [Hv _].
    rewrite (ref_kind H c u K Hu), (ref_kind H c v K Hv). apply US; auto. }
  set (H' := h_each_leaf (h_dist_move f) H (ref_graph H c) ls) in *.
  unfold view in V. destruct (mapM (unit_view H) (c_units c)) as [ns|] eqn:M; [|discriminate]. injection V as <-.
  assert (G : forall u p, In u (c_units c) -> unit_view H u = Some p -> unit_view H' u = Some (fst p, kmap (the f) (snd p))).
  { intros u p Hu. unfold unit_view. rewrite HU. destruct (nth_error (h_units H) u) as [[a| |]|] eqn:Ea; try discriminate;
      [|intros E; injection E as <-; reflexivity|intros E; injection E as <-; reflexivity].
    destruct (LK u a Hu Ea) as (d & d' & X1 & X2 & X3 & X4). rewrite X1. intros E. injection E as <-. cbn.
    rewrite (HR u a d).
    - unfold the. now rewrite X3.
    - apply IN. eauto.
    - now rewrite (ref_kind H c u K Hu).
    - exact X1. }
  apply mapM_Forall2 in M. unfold view.
  rewrite (proj2 (mapM_Forall2 (unit_view H') (c_units c) (map (fun p => (fst p, kmap (the f) (snd p))) ns))); [reflexivity|].
  clear - M G. induction M as [|u p us ns Ep _ IH]; constructor.
  - apply G; [now left|exact Ep].
  - apply IH. intros v q Hv. apply G. now right.
Qed.

(** ** What a translation does to one leaf *)

Local Open Scope R_scope.

Lemma Int_part_IZR z : Int_part (IZR z) = z.
Proof.
  unfold Int_part. rewrite <- (tech_up (IZR z) (z + 1)); [lia| |]; rewrite plus_IZR; lra.
Qed.

(** Renaming the keys of a dictionary injectively renames the entries. *)
Lemma dset_absent p k q : ~ In k (keys p) -> dset p k q = p ++ [(k, q)].
Proof.
  intros N. unfold dset. replace (existsb (fun kv => Z.eqb (fst kv) k) p) with false; [reflexivity|].
  symmetry. apply not_true_iff_false. intros X. apply existsb_exists in X. destruct X as ([x y] & Hx & E).
  apply Z.eqb_eq in E. cbn in E. subst. apply N. apply in_map_iff. exists (k, y). auto.
Qed.

Lemma dshift_map f p : (forall x y, f x = f y -> x = y) -> NoDup (keys p) ->
  dshift f p = map (fun kv => (f (fst kv), snd kv)) p.
Proof.
  intros J N. unfold dshift.
  assert (G : forall acc, (forall k, In k (keys p) -> ~ In (f k) (keys acc)) ->
    fold_left (fun acc kv => dset acc (f (fst kv)) (snd kv)) p acc = acc ++ map (fun kv => (f (fst kv), snd kv)) p).
  { induction p as [|[x y] p IH]; intros acc A; [cbn; now rewrite app_nil_r|]. cbn [fold_left map fst snd].
    inversion N as [|? ? Nx N']. subst. rewrite dset_absent by (apply A; now left). rewrite IH; auto.
    - now rewrite <- app_assoc.
    - intros k Hk. unfold keys. rewrite map_app, in_app_iff. cbn. intros [X|[X|[]]].
      + exact (A k (or_intror Hk) X).
      + apply J in X. subst. tauto. }
  rewrite G; [reflexivity|auto].
Qed.

Lemma Reqb_shift x y t : Reqb (x + t) (y + t) = Reqb x y.
Proof. destruct (Reqb_spec (x + t) (y + t)), (Reqb_spec x y); auto; exfalso; lra. Qed.
Lemma Rleb_shift x y t : Rleb (x + t) (y + t) = Rleb x y.
Proof. destruct (Rleb_spec (x + t) (y + t)), (Rleb_spec x y); auto; exfalso; lra. Qed.
Lemma Rltb_shift x y t : Rltb (x + t) (y + t) = Rltb x y.
Proof. destruct (Rltb_spec (x + t) (y + t)), (Rltb_spec x y); auto; exfalso; lra. Qed.

Lemma in_sint_shift t i x : in_sint (shift_sint t i) (x + t) = in_sint i x.
Proof.
  unfold in_sint, above, below, shift_sint. cbn.
  destruct (lo i) as [| |a|], (hi i) as [| |b|]; cbn; rewrite ?Rleb_shift, ?Rltb_shift; reflexivity.
Qed.

Lemma gauss_logpdf_shift mu s x t : gauss_logpdf (mu + t) s (x + t) = gauss_logpdf mu s x.
Proof. unfold gauss_logpdf. now replace (x + t - (mu + t)) with (x - mu) by lra. Qed.

Lemma gauss_cdf_shift mu s y t : gauss_cdf (mu + t) s (nadd y (Fin t)) = gauss_cdf mu s y.
Proof. unfold gauss_cdf. destruct y; cbn; auto. now replace (r + t - (mu + t)) with (r - mu) by lra. Qed.

(** Translations move integer leaves by whole numbers. *)
Definition whole (r : R) : Prop := exists z, r = IZR z.

Lemma ll_shift v p z x : ll1 (DInt v (map (fun kv => ((fst kv + z)%Z, snd kv)) p)) (x + IZR z) = ll1 (DInt v p) x.
Proof.
  cbn [ll1]. generalize NInf. induction p as [|[k q] p IH]; intros acc; [reflexivity|].
  cbn [map fold_left fst snd]. rewrite plus_IZR, Reqb_shift. apply IH.
Qed.

Lemma translate_leaf d t d' : dist_ok d -> (match d with DInt _ _ => whole t | _ => True end) -> translate1 t d = Some d' ->
  keeps d d' /\ dvar d' = dvar d /\ dist_ok d' /\ forall x, ll1 d' (x + t) = ll1 d x.
Proof.
  intros O Wh. destruct d as [v i|v loc cap|v mu s|v i mu s|v p|v p]; cbn [translate1]; try discriminate; intros E; injection E as <-.
  - repeat split; cbn -[nlog].
    + destruct O as (a & b & Ea & Eb & L). exists (a + t), (b + t). rewrite Ea, Eb. repeat split; auto. lra.
    + intros x. rewrite in_sint_shift. destruct O as (a & b & Ea & Eb & L). rewrite Ea, Eb. cbn.
      now replace (b + t + - (a + t)) with (b + - a) by lra.
  - repeat split; auto. intros x. cbn [ll1]. now rewrite Reqb_shift.
  - repeat split; auto. intros x. cbn. apply gauss_logpdf_shift.
  - destruct O as (P & A & B & C). repeat split; cbn; auto.
    + destruct (lo i); cbn; congruence.
    + destruct (hi i); cbn; congruence.
    + destruct (lo i), (hi i); cbn in *; auto; try congruence. lra.
    + intros x. rewrite in_sint_shift, gauss_logpdf_shift. unfold tg_const. cbn. now rewrite !gauss_cdf_shift.
  - destruct Wh as [z ->]. rewrite Int_part_IZR. destruct O as [[N P] T].
    assert (E : dshift (fun k => (k + z)%Z) p = map (fun kv => ((fst kv + z)%Z, snd kv)) p)
      by (apply dshift_map; [intros; lia|exact N]).
    split; [cbn; eauto|split; [reflexivity|split]].
    + unfold dist_ok. rewrite E. unfold dict_ok, keys, vals. rewrite !map_map. cbn [fst snd]. split; [split; [|exact P]|exact T].
      change (NoDup (map (fun kv : Z * R => (fst kv + z)%Z) p)). rewrite <- (map_map fst (fun k => (k + z)%Z)).
      apply FinFun.Injective_map_NoDup; [intros a b; lia|exact N].
    + intros x. rewrite E. apply ll_shift.
Qed.

(** ** What a positive scaling does to one leaf *)

(** The event stretched by the factor. *)
Definition scale_evset (s : R) (A : evset) : evset := match A with EInt A => EInt (map (scale_sint s) A) | ESym l => ESym l end.

Lemma nscale_inf_pos s : 0 < s -> nscale_inf s = PInf.
Proof. intros P. unfold nscale_inf. destruct (total_order_T s 0) as [[L|L]|L]; auto; lra. Qed.
Lemma nscale_inf_neg s : s < 0 -> nscale_inf s = NInf.
Proof. intros P. unfold nscale_inf. destruct (total_order_T s 0) as [[L|L]|L]; auto; lra. Qed.

Lemma Rleb_scale x y s : 0 < s -> Rleb (x * s) (y * s) = Rleb x y.
Proof. intros P. destruct (Rleb_spec (x * s) (y * s)), (Rleb_spec x y); auto; exfalso; nra. Qed.
Lemma Rltb_scale x y s : 0 < s -> Rltb (x * s) (y * s) = Rltb x y.
Proof. intros P. destruct (Rltb_spec (x * s) (y * s)), (Rltb_spec x y); auto; exfalso; nra. Qed.

Lemma in_sint_scale s i x : 0 < s -> in_sint (scale_sint s i) (x * s) = in_sint i x.
Proof.
  intros P. unfold in_sint, above, below, scale_sint. cbn.
  destruct (lo i) as [| |a|], (hi i) as [| |b|]; cbn; rewrite ?(nscale_inf_pos s P), ?(nscale_inf_neg (- s)), ?Rleb_scale, ?Rltb_scale by lra;
    reflexivity.
Qed.

Lemma sint_ok_scale s i : 0 < s -> sint_ok i -> sint_ok (scale_sint s i).
Proof.
  intros P (A & B & C & D & Q). unfold sint_ok, scale_sint. cbn.
  destruct (lo i) as [| |a|], (hi i) as [| |b|]; try congruence; cbn in *;
    rewrite ?(nscale_inf_pos s P), ?(nscale_inf_neg (- s)) by lra; repeat split; try discriminate; cbn; auto.
  destruct Q as [Q|(x & E1 & E2 & E3 & E4)]; [left; nra|right]. injection E1 as ->. injection E2 as ->. eauto.
Qed.

Lemma interval_ok_scale s A : 0 < s -> interval_ok A -> interval_ok (map (scale_sint s) A).
Proof.
  intros P [O D]. split.
  - apply Forall_map. eapply Forall_impl; [|exact O]. intros i. now apply sint_ok_scale.
  - clear O. induction A as [|i A IH]; cbn in *; [exact I|]. destruct D as [D1 D2]. split; [|now apply IH].
    intros j Hj x. apply in_map_iff in Hj. destruct Hj as (j' & <- & Hj'). specialize (D1 j' Hj' (x / s)).
    replace x with (x / s * s) by (field; lra). rewrite !in_sint_scale by exact P. exact D1.
Qed.

Lemma evset_ok_scale s d A : 0 < s -> evset_ok d A -> evset_ok d (scale_evset s A).
Proof.
  intros P. destruct d, A; cbn; auto; intros [O N]; (split; [now apply interval_ok_scale|]); intros X; now apply map_eq_nil in X.
Qed.

Lemma in_interval_scale s A x : 0 < s -> in_interval (map (scale_sint s) A) (x * s) = in_interval A x.
Proof.
  intros P. unfold in_interval. induction A as [|i A IH]; [reflexivity|]. cbn. now rewrite in_sint_scale, IH.
Qed.

Definition scalable (s : R) (d : dist) : Prop :=
  match d with DUnif _ _ | DSym _ _ => True | DInt _ _ => whole s | _ => False end.

Lemma scale_leaf d s d' : dist_ok d -> 0 < s -> scalable s d -> scale1 s d = Some d' ->
  keeps d d' /\ dvar d' = dvar d /\ dist_ok d' /\
  (forall A, evset_ok d A -> evset_ok d' (scale_evset s A) /\ probR d' (scale_evset s A) = probR d A).
Proof.
  intros O P Sc. destruct d as [v i|v loc cap|v mu sg|v i mu sg|v p|v p]; cbn [scalable] in Sc; try tauto; cbn [scale1];
    intros E; injection E as <-.
  - destruct O as (a & b & Ea & Eb & L). split; [exact I|split; [reflexivity|split]].
    + exists (a * s), (b * s). cbn. rewrite Ea, Eb. repeat split; auto.
    + intros [A|l] H; [|destruct H]. split; [exact (evset_ok_scale s (DUnif v i) (EInt A) P H)|].
      cbn [scale_evset probR]. unfold measure. rewrite map_map. f_equal. apply map_ext_in. intros j Hj.
      assert (C : forall y, y <> NaN -> cdfR (DUnif v (scale_sint s i)) (nmul y (Fin s)) = cdfR (DUnif v i) y).
      { intros [| |y|] Ny; try congruence; cbn; rewrite Ea, Eb; cbn; rewrite ?(nscale_inf_pos s P), ?(nscale_inf_neg (- s)) by lra; auto.
        do 2 f_equal. assert (0 < (b - a) * s) by (apply Rmult_lt_0_compat; lra). field. repeat split; lra. }
      unfold delta. cbn [scale_sint hi lo].
      destruct H as [[H _] _]. rewrite Forall_forall in H. destruct (H j Hj) as (N1 & _ & N2 & _).
      rewrite !C by auto. reflexivity.
  - split; [reflexivity|split; [reflexivity|split; [exact O|]]].
    intros [A|l] H; [destruct H|]. split; [exact H|reflexivity].
  - destruct Sc as [z ->]. rewrite Int_part_IZR. destruct O as [[N Q] T].
    assert (Pz : (0 < z)%Z) by now apply lt_IZR.
    assert (E : dshift (fun k => (k * z)%Z) p = map (fun kv => ((fst kv * z)%Z, snd kv)) p)
      by (apply dshift_map; [intros x y X; eapply Z.mul_cancel_r; [|exact X]; lia|exact N]).
    split; [cbn; eauto|split; [reflexivity|split]].
    + unfold dist_ok. rewrite E. unfold dict_ok, keys, vals. rewrite !map_map. cbn [fst snd]. split; [split; [|exact Q]|exact T].
      change (NoDup (map (fun kv : Z * R => (fst kv * z)%Z) p)). rewrite <- (map_map fst (fun k => (k * z)%Z)).
      apply FinFun.Injective_map_NoDup; [intros a b X; eapply Z.mul_cancel_r; [|exact X]; lia|exact N].
    + intros [A|l] H; [|destruct H]. split; [exact (evset_ok_scale (IZR z) (DInt v p) (EInt A) P H)|].
      cbn [scale_evset probR in_evset]. rewrite E, map_map. f_equal. apply map_ext. intros [k q]. cbn [fst snd].
      now rewrite mult_IZR, in_interval_scale.
Qed.
