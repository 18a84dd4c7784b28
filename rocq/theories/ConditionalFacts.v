(** * ConditionalFacts: the bottom-up pass of conditioning on tree-shaped circuits *)
From Coq Require Import List Arith Bool Lia Reals Lra Permutation.
From Verif Require Import Num Graph GraphFacts Spec SpecFacts Circuit EvalFacts Simplify SimplifyFacts TreeLocal NormalizeFacts
  Restrict Conditional.
Import ListNotations.

Section Replace.
Context {D : Type}.
Implicit Types g : graph D.

(** A tree-shaped circuit without empty or zero-weight sums, stated unit by unit. *)
Record tcore g (r : id) : Prop := {
  tk_tree : tree_shaped g r;
  tk_leaf : leaves_terminal g;
  tk_sum : forall u, node_kind g u = Some USum -> out_edges g u <> [];
  tk_w : forall e, In e (g_edges g) -> node_kind g (e_src e) = Some USum -> exists x, e_lw e = Some (Fin x)
}.

(** The same with shared units. *)
Record lcore g (r : id) : Prop := {
  lk_wf : wf g;
  lk_acyclic : acyclic g;
  lk_root : root g = Some r;
  lk_leaf : leaves_terminal g;
  lk_sum : forall u, node_kind g u = Some USum -> out_edges g u <> [];
  lk_w : forall e, In e (g_edges g) -> node_kind g (e_src e) = Some USum -> exists x, e_lw e = Some (Fin x)
}.

Lemma tcore_circuit g r : tcore g r -> exists t, tree_circuit g r t.
Proof.
  intros [H1 H2 H3 H4]. destruct (tree_tinv g r H1 H2 H3 H4) as [pos [order [_ [Ht _]]]].
  destruct (tinv_unfolds _ _ _ Ht) as [t [Hu Hf]]. exists t. constructor; auto.
Qed.

Lemma circuit_tcore g r t : tree_circuit g r t -> tcore g r.
Proof. intros H. constructor; [apply H|apply H|eapply tc_sum; eauto|eapply tc_w; eauto]. Qed.

(** ** Adding the parts *)
Lemma add_parts s l : forall g (st : store num) (nx : nat), (forall x, In x (node_ids g) -> x < nx) ->
  (forall e, In e (g_edges g) -> e_dst e < nx) ->
  exists ns es st',
    fold_left (add_part s) l (g, st, nx) = (mkGraph (g_nodes g ++ ns) (g_edges g ++ es), st', nx + length l) /\
    map fst ns = seq nx (length l) /\ Forall2 (fun n pd => snd n = ULeaf (snd pd)) ns l /\
    map e_dst es = seq nx (length l) /\ Forall2 (fun e pd => e_src e = s /\ e_lw e = Some (fst pd)) es l /\
    (forall x, st' x = if (nx <=? x) && (x <? nx + length l) then None else st x).
Proof.
  induction l as [|[p d] l IH]; intros g st nx Hid He; cbn [fold_left].
  - exists [], [], st. rewrite !app_nil_r. destruct g. simpl. rewrite Nat.add_0_r.
    repeat (split; [auto; try constructor|]). intros x.
    destruct (nx <=? x) eqn:E1, (x <? nx) eqn:E2; auto. apply Nat.leb_le in E1. apply Nat.ltb_lt in E2. lia.
  - change (add_part s (g, st, nx) (p, d)) with (add_edge (add_node g nx (ULeaf d)) s nx (Some p), clear st nx, S nx).
    assert (Hn : has_node g nx = false).
    { destruct (has_node g nx) eqn:E; auto. apply existsb_exists in E. destruct E as [x [Hx E]]. apply Nat.eqb_eq in E. subst. apply Hid in Hx. lia. }
    unfold add_node. rewrite Hn. rewrite add_edge_fresh; cbn [g_nodes g_edges].
    2:{ intros e Hin [_ E]. apply He in Hin. lia. }
    destruct (IH (mkGraph (g_nodes g ++ [(nx, ULeaf d)]) (g_edges g ++ [mkEdge s nx (Some p)])) (clear st nx) (S nx)) as [ns [es [st' [H1 [H2 [H3 [H4 [H5 H6]]]]]]]].
    + intros x Hx. unfold node_ids in Hx. cbn in Hx. rewrite map_app, in_app_iff in Hx. destruct Hx as [Hx|[<-|[]]]; [apply Hid in Hx; lia|simpl; lia].
    + intros e Hin. cbn in Hin. rewrite in_app_iff in Hin. destruct Hin as [Hin|[<-|[]]]; [apply He in Hin; lia|simpl; lia].
    + exists ((nx, ULeaf d) :: ns), (mkEdge s nx (Some p) :: es), st'. cbn [length]. cbn [map fst e_dst seq].
      split; [etransitivity; [exact H1|]; cbn [g_nodes g_edges]; rewrite <- !app_assoc, <- plus_n_Sm; reflexivity|]. split; [now rewrite H2|]. split; [constructor; auto|]. split; [now rewrite H4|].
      split; [constructor; auto|]. intros x. rewrite H6. rewrite <- plus_n_Sm. unfold clear.
      destruct (Nat.eqb_spec x nx) as [->|Hne].
      * replace (S nx <=? nx) with false by (symmetry; apply Nat.leb_gt; lia). rewrite Nat.leb_refl. cbn [andb].
        replace (nx <? S (nx + length l)) with true by (symmetry; apply Nat.ltb_lt; lia). reflexivity.
      * replace (S nx <=? x) with (nx <=? x); [|destruct (nx <=? x) eqn:E1, (S nx <=? x) eqn:E2; auto;
          rewrite ?Nat.leb_le, ?Nat.leb_gt in *; lia]. reflexivity.
Qed.

Definition reroute (u s : id) (e : edge) : edge := if e_dst e =? u then mkEdge (e_src e) s (e_lw e) else e.

Lemma reroute_perm (u s x : id) L : (forall e, In e L -> e_src e <> u) ->
  Permutation (filter (fun e => e_src e =? x) (filter (keeps u) L) ++
               filter (fun e => e_src e =? x) (map (fun e => mkEdge (e_src e) s (e_lw e)) (filter (fun e => e_dst e =? u) L)))
              (map (reroute u s) (filter (fun e => e_src e =? x) L)).
Proof.
  induction L as [|e L IH]; intros Hs; simpl; auto.
  assert (Hn : e_src e <> u) by (apply Hs; now left). assert (IH' := IH (fun e' H => Hs e' (or_intror H))). clear IH.
  unfold keeps at 1. replace (e_src e =? u) with false by (symmetry; now apply Nat.eqb_neq). cbn [negb andb].
  destruct (e_dst e =? u) eqn:E1; cbn [negb].
  - cbn [map filter e_src]. destruct (e_src e =? x) eqn:E2.
    + cbn [map]. unfold reroute at 1. rewrite E1. apply Permutation_sym, Permutation_cons_app, Permutation_sym. exact IH'.
    + exact IH'.
  - cbn [filter]. destruct (e_src e =? x) eqn:E2; auto. cbn [map app]. unfold reroute at 1. rewrite E1. now constructor.
Qed.

Lemma node_ids_app ns1 ns2 (es : list edge) : node_ids (mkGraph (D := D) (ns1 ++ ns2) es) = map fst ns1 ++ map fst ns2.
Proof. unfold node_ids. simpl. apply map_app. Qed.

Lemma find_app {A} (f : A -> bool) l1 l2 : find f (l1 ++ l2) = match find f l1 with Some x => Some x | None => find f l2 end.
Proof. induction l1; simpl; auto. destruct (f a); auto. Qed.

(** The circuit after the leaf [u] was replaced by a new sum unit [s] with the new leaves [ns] and edges [es]. *)
Definition replaced g (u s : id) (ns : list (id * ukind D)) (es : list edge) : graph D :=
  mkGraph (filter (fun p => negb (fst p =? u)) (g_nodes g) ++ (s, USum) :: ns)
          (filter (keeps u) (g_edges g) ++ es ++ map (fun e => mkEdge (e_src e) s (e_lw e)) (in_edges g u)).

Lemma connect_fresh (c : id) l : forall g, NoDup (map e_src l) -> (forall e, In e (g_edges g) -> e_dst e <> c) ->
  fold_left (fun h e => add_edge h (e_src e) c (e_lw e)) l g = mkGraph (g_nodes g) (g_edges g ++ map (fun e => mkEdge (e_src e) c (e_lw e)) l).
Proof.
  assert (G : forall l g, NoDup (map e_src l) -> (forall e, In e (g_edges g) -> e_dst e = c -> ~ In (e_src e) (map e_src l)) ->
    fold_left (fun h e => add_edge h (e_src e) c (e_lw e)) l g = mkGraph (g_nodes g) (g_edges g ++ map (fun e => mkEdge (e_src e) c (e_lw e)) l)).
  { clear l. induction l as [|e l IH]; intros g N H; cbn [fold_left map]; [rewrite app_nil_r; now destruct g|]. inversion N as [|? ? Hn N']; subst.
    rewrite add_edge_fresh.
    - rewrite IH; cbn [g_nodes g_edges]; [now rewrite <- app_assoc|exact N'|]. intros e' He' E. apply in_app_or in He'. destruct He' as [He'|[<-|[]]]; [|exact Hn].
      intros X. apply (H e' He' E). now right.
    - intros e' He' [E1 E2]. apply (H e' He' E2). left. now symmetry. }
  intros g N H. apply G; [exact N|]. intros e He E. exfalso. exact (H e He E).
Qed.

Lemma leaf_conditional_many lcond g u d (st : store num) (nx : nat) l lp : wf g -> leaves_terminal g -> node_kind g u = Some (ULeaf d) ->
  (forall x, In x (node_ids g) -> x < nx) -> lcond d = Some (LMany l lp) -> l <> [] ->
  Forall (fun pd => exists x, fst pd = Fin x) l ->
  exists ns es st', leaf_conditional lcond (g, st, nx) u d = Some (replaced g u nx ns es, upd st' nx lp, S nx + length l) /\
    map fst ns = seq (S nx) (length l) /\ Forall2 (fun n pd => snd n = ULeaf (snd pd)) ns l /\
    map e_dst es = seq (S nx) (length l) /\ Forall (fun e => e_src e = nx /\ exists x, e_lw e = Some (Fin x)) es /\
    (forall x, st' x = if (nx <=? x) && (x <? S nx + length l) then None else st x).
Proof.
  intros Hwf Hlf Hk Hlt Hc Hne Hfin.
  assert (Hu : In u (node_ids g)) by (eapply node_kind_ids; eauto). assert (Hux := Hlt u Hu).
  assert (Hle : forall e, In e (g_edges g) -> e_dst e < nx) by (intros e He; apply Hlt; now apply (wf_dst g Hwf)).
  assert (Hls : forall e, In e (g_edges g) -> e_src e < nx) by (intros e He; apply Hlt; now apply (wf_src g Hwf)).
  assert (Hlu : forall e, In e (g_edges g) -> e_src e <> u) by (intros e He E; apply (Hlf e d He); rewrite E; exact Hk).
  unfold leaf_conditional. rewrite Hc.
  assert (Hn : has_node g nx = false).
  { destruct (has_node g nx) eqn:E; auto. apply existsb_exists in E. destruct E as [x [Hx E]]. apply Nat.eqb_eq in E. subst. apply Hlt in Hx. lia. }
  unfold add_node. rewrite Hn.
  destruct (add_parts nx l (mkGraph (g_nodes g ++ [@pair id _ nx USum]) (g_edges g)) (clear st nx) (S nx)) as [ns [es [st' [H1 [H2 [H3 [H4 [H5 H6]]]]]]]].
  { intros x Hx. rewrite node_ids_app, in_app_iff in Hx. destruct Hx as [Hx|[<-|[]]]; [apply Hlt in Hx; lia|simpl; lia]. }
  { intros e He. apply Hle in He. lia. }
  rewrite H1. cbn [g_nodes g_edges].
  assert (Hes : forall e, In e es -> e_src e = nx /\ nx < e_dst e).
  { intros e He. split.
    - clear - H5 He. induction H5 as [|a pd es l [A _] _ IH]; [destruct He|]. destruct He as [<-|He]; auto.
    - apply (in_map e_dst) in He. rewrite H4 in He. apply in_seq in He. lia. }
  set (G := mkGraph ((g_nodes g ++ [@pair id (ukind D) nx USum]) ++ ns) (g_edges g ++ es)).
  assert (Hin : in_edges G u = in_edges g u).
  { unfold in_edges, G. simpl. rewrite filter_app. replace (filter (fun e => e_dst e =? u) es) with (@nil edge); [apply app_nil_r|].
    symmetry. apply filter_nil. intros e He. apply Hes in He. apply Nat.eqb_neq. lia. }
  assert (Hcon : connect_incoming_edges_to G u nx =
    mkGraph ((g_nodes g ++ [@pair id (ukind D) nx USum]) ++ ns) ((g_edges g ++ es) ++ map (fun e => mkEdge (e_src e) nx (e_lw e)) (in_edges g u))).
  { unfold connect_incoming_edges_to. rewrite Hin. rewrite (connect_fresh nx (in_edges g u) G).
    - unfold G. reflexivity.
    - unfold in_edges. assert (Nn := wf_edges g Hwf). revert Nn. generalize (g_edges g) as L. intros L Nn.
      induction L as [|e L IH]; cbn [filter map]; [constructor|]. inversion Nn as [|? ? Hnot Nn']; subst. destruct (Nat.eqb_spec (e_dst e) u) as [E|E]; cbn [map]; [|now apply IH].
      constructor; [|now apply IH]. intros X. apply in_map_iff in X. destruct X as [e' [E' X]]. apply filter_In in X. destruct X as [X Eu]. apply Nat.eqb_eq in Eu.
      apply Hnot. apply in_map_iff. exists e'. split; [congruence|exact X].
    - intros e He E. unfold G in He. simpl in He. apply in_app_or in He. destruct He as [He|He]; [apply Hle in He; lia|apply Hes in He; lia]. }
  rewrite Hcon. unfold remove_node.
  assert (Hh : forall es', has_node (mkGraph (D := D) ((g_nodes g ++ [@pair id (ukind D) nx USum]) ++ ns) es') u = true).
  { intros es'. unfold has_node. apply existsb_exists. exists u. split; [|apply Nat.eqb_refl]. rewrite node_ids_app, map_app, !in_app_iff. auto. }
  rewrite Hh.
  assert (Hdrop : drop_node (mkGraph ((g_nodes g ++ [@pair id (ukind D) nx USum]) ++ ns) ((g_edges g ++ es) ++ map (fun e => mkEdge (e_src e) nx (e_lw e)) (in_edges g u))) u
                  = replaced g u nx ns es).
  { unfold drop_node, replaced. cbn [g_nodes g_edges]. rewrite !filter_app. cbn [filter fst].
    replace (nx =? u) with false by (symmetry; apply Nat.eqb_neq; lia). cbn [negb].
    rewrite <- !app_assoc. cbn [app]. f_equal; f_equal.
    - f_equal. apply filter_all. intros [y ky] Hin'. apply (in_map fst) in Hin'. rewrite H2 in Hin'. cbn [fst] in *. apply in_seq in Hin'.
      apply negb_true_iff, Nat.eqb_neq. lia.
    - f_equal.
      + apply filter_all. intros e He. apply Hes in He. rewrite andb_true_iff, !negb_true_iff, !Nat.eqb_neq. lia.
      + apply filter_all. intros e He. apply in_map_iff in He. destruct He as [e' [<- He']]. apply in_edges_In in He'. destruct He' as [He' _].
        specialize (Hlu e' He'). rewrite andb_true_iff, !negb_true_iff, !Nat.eqb_neq. simpl. split; [auto|lia]. }
  rewrite Hdrop.
  assert (Hout : out_edges (replaced g u nx ns es) nx = es).
  { unfold out_edges, replaced. cbn [g_edges]. rewrite !filter_app.
    rewrite (filter_nil _ (filter (keeps u) (g_edges g))), (filter_nil _ (map _ _)), app_nil_r.
    - simpl. apply filter_all. intros e He. apply Hes in He. apply Nat.eqb_eq. tauto.
    - intros e He. apply in_map_iff in He. destruct He as [e' [<- He']]. apply in_edges_In in He'. destruct He' as [He' _]. apply Hls in He'. simpl. apply Nat.eqb_neq. lia.
    - intros e He. apply filter_In in He. destruct He as [He _]. apply Hls in He. apply Nat.eqb_neq. lia. }
  destruct (sum_normalize_spec (replaced g u nx ns es) nx) as [f [F1 F2]].
  { exists (map fst l). unfold weights_of. rewrite Hout. split; [|split].
    - apply mapM_Forall2. clear - H5. induction H5 as [|e pd es l [_ A] _ IH]; simpl; constructor; auto.
    - apply Forall_map. eapply Forall_impl; [|exact Hfin]. intros pd [x ->]. exact I.
    - destruct l as [|pd l]; [tauto|]. inversion Hfin as [|? ? [x Hx] Hfin']; subst. cbn [map Rsum fold_right]. rewrite Hx.
      apply Rplus_lt_le_0_compat; [apply exp_pos|]. apply Rsum_nonneg. apply Forall_map, Forall_map. eapply Forall_impl; [|exact Hfin'].
      intros pd' [y ->]. left. apply exp_pos. }
  rewrite F1.
  set (f' := fun e : edge => mkEdge (e_src e) (e_dst e) (option_map f (e_lw e))).
  exists ns, (map f' es), st'. split; [|split; [auto|split; [auto|split; [|split]]]].
  - f_equal. f_equal. f_equal. unfold set_weights, replaced. cbn [g_nodes g_edges]. f_equal.
    assert (Hid : forall L, (forall e, In e L -> e_src e <> nx) -> map (fun e => if e_src e =? nx then mkEdge (e_src e) (e_dst e) (option_map f (e_lw e)) else e) L = L).
    { intros L HL. rewrite (map_ext_in _ (fun e => e)); [apply map_id|]. intros e He. apply HL in He. apply Nat.eqb_neq in He. now rewrite He. }
    rewrite !map_app. f_equal; [|f_equal].
    + apply Hid. intros e He. apply filter_In in He. destruct He as [He _]. apply Hls in He. lia.
    + apply map_ext_in. intros e He. apply Hes in He. destruct He as [Ee _]. unfold f'. now rewrite Ee, Nat.eqb_refl.
    + apply Hid. intros e He. apply in_map_iff in He. destruct He as [e' [<- He']]. apply in_edges_In in He'. destruct He' as [He' _]. apply Hls in He'. simpl. lia.
  - rewrite map_map. exact H4.
  - apply Forall_map. apply Forall_forall. intros e He. split; [simpl; apply (Hes e He)|].
    destruct F2 as [c [Hc' [F2 _]]]. rewrite Hout in F2.
    assert (E : out_edges (set_weights nx f (replaced g u nx ns es)) nx = map f' es) by (rewrite set_weights_out, Nat.eqb_refl, Hout; reflexivity).
    rewrite E in F2. clear - F2 He H5 Hfin Hc'.
    assert (G : In (e, f' e) (combine es (map f' es))).
    { clear - He. induction es as [|a es IH]; simpl in *; [tauto|]. destruct He as [<-|He]; auto. }
    assert (G2 : exists w w', e_lw e = Some w /\ e_lw (f' e) = Some w' /\ lw_ok w' /\ wexp w' = (wexp w / c)%R).
    { clear - F2 He. induction es as [|a es IH]; simpl in *; [tauto|]. inversion F2 as [|? ? ? ? [_ [_ A]] F2']; subst. destruct He as [<-|He]; auto. }
    destruct G2 as [w [w' [E1 [E2 [E3 E4]]]]].
    assert (Hwf : exists x, w = Fin x).
    { clear - H5 Hfin He E1. induction H5 as [|a pd es l [_ A] H5 IH]; [destruct He|]. inversion Hfin as [|? ? [x Hx] Hfin']; subst.
      destruct He as [<-|He]; auto. exists x. congruence. }
    destruct Hwf as [x ->]. rewrite E2. destruct w'; simpl in E3; try tauto; eauto. exfalso. simpl in E4.
    pose proof (exp_pos x). assert (0 < exp x / c)%R; [|lra]. unfold Rdiv. apply Rmult_lt_0_compat; auto. now apply Rinv_0_lt_compat.
  - intros x. rewrite H6. unfold clear. destruct (Nat.eqb_spec x nx) as [->|Hne'].
    + rewrite Nat.leb_refl. replace (nx <? S nx + length l) with true by (symmetry; apply Nat.ltb_lt; lia). now destruct (S nx <=? nx), (nx <? S nx + length l).
    + replace (S nx <=? x) with (nx <=? x); [|destruct (nx <=? x) eqn:E1, (S nx <=? x) eqn:E2; auto;
          rewrite ?Nat.leb_le, ?Nat.leb_gt in *; lia]. reflexivity.
Qed.

(** ** The replaced circuit *)
Section Replaced.
Variables (g : graph D) (r u : id) (d : D) (nx : nat) (l : list (num * D)) (ns : list (id * ukind D)) (es : list edge).
Hypothesis Hwf : wf g.
Hypothesis Hlf : leaves_terminal g.
Hypothesis Hku : node_kind g u = Some (ULeaf d).
Hypothesis Hlt : forall x, In x (node_ids g) -> x < nx.
Hypothesis Hne : l <> [].
Hypothesis Hns : map fst ns = seq (S nx) (length l).
Hypothesis Hnk : Forall2 (fun n pd => snd n = ULeaf (snd pd)) ns l.
Hypothesis Hed : map e_dst es = seq (S nx) (length l).
Hypothesis Hes : Forall (fun e => e_src e = nx /\ exists x, e_lw e = Some (Fin x)) es.
Let g' := replaced g u nx ns es.

Lemma rep_u : In u (node_ids g).
Proof. eapply node_kind_ids; eauto. Qed.

Lemma rep_src_u e : In e (g_edges g) -> e_src e <> u.
Proof. intros He E. apply (Hlf e d He). rewrite E. exact Hku. Qed.

Lemma rep_ends e : In e (g_edges g) -> e_src e < nx /\ e_dst e < nx.
Proof.
  intros He. split; apply Hlt; [now apply (wf_src g Hwf)|now apply (wf_dst g Hwf)].
Qed.

Lemma rep_es e : In e es -> e_src e = nx /\ (S nx <= e_dst e < S nx + length l) /\ exists x, e_lw e = Some (Fin x).
Proof.
  intros He. rewrite Forall_forall in Hes. destruct (Hes e He) as [A B]. split; [auto|split; [|auto]].
  apply (in_map e_dst) in He. rewrite Hed in He. now apply in_seq in He.
Qed.

Lemma rep_ids x : In x (node_ids g') <-> (In x (node_ids g) /\ x <> u) \/ (nx <= x < S nx + length l).
Proof.
  unfold g', replaced. rewrite node_ids_app, in_app_iff. cbn [map fst]. rewrite Hns.
  assert (E : In x (map fst (filter (fun p => negb (fst p =? u)) (g_nodes g))) <-> In x (node_ids g) /\ x <> u) by apply (drop_node_ids g u x).
  rewrite E. change (In x (nx :: seq (S nx) (length l))) with (In x (seq nx (S (length l)))). rewrite in_seq.
  replace (nx + S (length l)) with (S nx + length l) by lia. tauto.
Qed.

Lemma rep_NoDup : NoDup (node_ids g').
Proof.
  unfold g', replaced. rewrite node_ids_app. apply NoDup_app_intro.
  - apply NoDup_map_filter. apply Hwf.
  - cbn [map fst]. rewrite Hns. change (NoDup (seq nx (S (length l)))). apply seq_NoDup.
  - intros x Hx Hx'. cbn [map fst] in Hx'. rewrite Hns in Hx'. change (In x (seq nx (S (length l)))) in Hx'. apply in_seq in Hx'.
    assert (In x (node_ids g)) by (apply (drop_node_ids g u x) in Hx; tauto). apply Hlt in H. lia.
Qed.

Lemma rep_edges e : In e (g_edges g') <-> (In e (g_edges g) /\ e_dst e <> u) \/ In e es \/
  (exists e0, In e0 (g_edges g) /\ e_dst e0 = u /\ e = mkEdge (e_src e0) nx (e_lw e0)).
Proof.
  unfold g', replaced. cbn [g_edges]. rewrite !in_app_iff, filter_In, keeps_spec, in_map_iff. split.
  - intros [[A [B C]]|[A|[e0 [<- A]]]]; auto. apply in_edges_In in A. right. right. exists e0. tauto.
  - intros [[A B]|[A|[e0 [A [B ->]]]]]; auto.
    + left. split; [auto|split; [now apply rep_src_u|auto]].
    + right. right. exists e0. split; auto. apply in_edges_In. auto.
Qed.

Lemma rep_kind_old x : In x (node_ids g) -> x <> u -> node_kind g' x = node_kind g x.
Proof.
  intros Hx Hxu. rewrite <- (drop_node_kind g u x Hxu). unfold node_kind, drop_node, g', replaced. cbn [g_nodes]. rewrite find_app.
  destruct (find _ (filter _ _)) as [p|] eqn:E; auto. cbn [find fst].
  assert (Hin : In x (node_ids (drop_node g u))) by (apply drop_node_ids; auto). unfold node_ids, drop_node in Hin. cbn [g_nodes] in Hin.
  apply in_map_iff in Hin. destruct Hin as [p [Ep Hp]]. apply (find_none _ _ E) in Hp. exfalso. subst x. rewrite Nat.eqb_refl in Hp. discriminate.
Qed.

Lemma rep_kind_u : node_kind g' u = None.
Proof.
  destruct (node_kind g' u) eqn:E; auto. exfalso. apply node_kind_ids in E. apply rep_ids in E. pose proof (Hlt u rep_u). destruct E as [[_ E]|E]; [auto|lia].
Qed.

Lemma rep_kind_sum : node_kind g' nx = Some USum.
Proof.
  apply node_kind_NoDup; [apply rep_NoDup|]. unfold g', replaced. cbn [g_nodes]. apply in_or_app. right. now left.
Qed.

Lemma rep_kind_new x : S nx <= x < S nx + length l -> exists pd, In pd l /\ node_kind g' x = Some (ULeaf (snd pd)).
Proof.
  intros Hx. assert (Hin : In x (map fst ns)) by (rewrite Hns; apply in_seq; lia).
  apply in_map_iff in Hin. destruct Hin as [[y k] [E Hin]]. simpl in E. subst y.
  assert (G : exists pd, In pd l /\ k = ULeaf (snd pd)).
  { clear - Hnk Hin. induction Hnk as [|n pd ns l A B IH]; [destruct Hin|]. destruct Hin as [-> |Hin]; [exists pd; simpl in *; auto|].
    destruct (IH B Hin) as [pd' [P1 P2]]. exists pd'. simpl. auto. }
  destruct G as [pd [P1 ->]]. exists pd. split; auto. apply node_kind_NoDup; [apply rep_NoDup|].
  unfold g', replaced. cbn [g_nodes]. apply in_or_app. right. now right.
Qed.

Lemma rep_out_old x : In x (node_ids g) -> Permutation (out_edges g' x) (map (reroute u nx) (out_edges g x)).
Proof.
  intros Hx. rewrite <- (reroute_perm u nx x (g_edges g)); [|intros e He; now apply rep_src_u].
  unfold out_edges, g', replaced. cbn [g_edges]. rewrite !filter_app, (filter_nil _ es); [reflexivity|].
  intros e He. apply rep_es in He. destruct He as [E _]. apply Hlt in Hx. apply Nat.eqb_neq. rewrite E. lia.
Qed.

Lemma rep_out_sum : out_edges g' nx = es.
Proof.
  unfold out_edges, g', replaced. cbn [g_edges]. rewrite !filter_app.
  rewrite (filter_nil _ (filter (keeps u) (g_edges g))), (filter_nil _ (map _ _)), app_nil_r.
  - simpl. apply filter_all. intros e He. apply rep_es in He. apply Nat.eqb_eq. tauto.
  - intros e He. apply in_map_iff in He. destruct He as [e' [<- He']]. apply in_edges_In in He'. destruct He' as [He' _]. apply rep_ends in He'. simpl. apply Nat.eqb_neq. lia.
  - intros e He. apply filter_In in He. destruct He as [He _]. apply rep_ends in He. apply Nat.eqb_neq. lia.
Qed.

Lemma rep_es_ne : es <> [].
Proof. intros E. rewrite E in Hed. destruct l; [auto|discriminate]. Qed.

Lemma rep_core : tcore g r -> tcore g' (if r =? u then nx else r).
Proof.
  intros Hcore. pose proof (tk_tree _ _ Hcore) as [_ [[rk Hrk] [Hr [Hnd [Hall Htop]]]]].
  pose proof (Hlt u rep_u) as Hux.
  assert (Hin1 : forall e1 e2, In e1 (in_edges g u) -> In e2 (in_edges g u) -> e1 = e2) by (intros; eapply tree_in_edges; eauto; apply Hcore).
  assert (Hnddst : NoDup (map e_dst (g_edges g'))).
  { unfold g', replaced. cbn [g_edges]. rewrite !map_app. apply NoDup_app_intro; [now apply NoDup_map_filter| |].
    - apply NoDup_app_intro.
      + rewrite Hed. apply seq_NoDup.
      + assert (Nn : NoDup (in_edges g u)) by (unfold in_edges; apply NoDup_filter; eapply NoDup_map_NoDup; eauto).
        destruct (in_edges g u) as [|e0 [|e1 rest]]; simpl; [constructor|constructor; [auto|constructor]|].
        exfalso. assert (E : e0 = e1) by (apply Hin1; simpl; auto). subst e1. inversion Nn as [|? ? Hnot _]; subst. apply Hnot. now left.
      + intros x Hx Hx'. rewrite Hed in Hx. apply in_seq in Hx. rewrite map_map in Hx'. apply in_map_iff in Hx'. destruct Hx' as [e [E _]]. simpl in E. subst x. lia.
    - intros x Hx Hx'. apply in_map_iff in Hx. destruct Hx as [e [<- He]]. apply filter_In in He. destruct He as [He _]. apply rep_ends in He.
      rewrite in_app_iff, Hed, in_seq, map_map in Hx'. destruct Hx' as [Hx'|Hx']; [lia|].
      apply in_map_iff in Hx'. destruct Hx' as [e' [E _]]. simpl in E. rewrite <- E in He. lia. }
  assert (Hwf' : wf g').
  { constructor.
    - apply rep_NoDup.
    - clear - Hnddst. induction (g_edges g') as [|e L IH]; simpl; constructor; inversion Hnddst; subst; auto.
      intros Hin. apply H1. apply in_map_iff in Hin. destruct Hin as [e' [E Hin]]. injection E as _ E. rewrite <- E. now apply in_map.
    - intros e He. apply rep_ids. apply rep_edges in He. destruct He as [[He Hd]|[He|[e0 [He [Hd ->]]]]].
      + left. split; [now apply (wf_src g Hwf)|now apply rep_src_u].
      + apply rep_es in He. destruct He as [-> _]. right. lia.
      + left. simpl. split; [now apply (wf_src g Hwf)|now apply rep_src_u].
    - intros e He. apply rep_ids. apply rep_edges in He. destruct He as [[He Hd]|[He|[e0 [He [Hd ->]]]]].
      + left. split; [now apply (wf_dst g Hwf)|auto].
      + apply rep_es in He. right. lia.
      + right. simpl. lia.
 }
  constructor.
  - split; [auto|split; [|split; [|split; [auto|split]]]].
    + exists (fun x => if x <? nx then 2 * rk x + 2 else if x =? nx then 2 * rk u + 2 else 0). intros e He.
      apply rep_edges in He. destruct He as [[He Hd]|[He|[e0 [He [Hd ->]]]]].
      * pose proof (Hrk e He). apply rep_ends in He. destruct He as [H1 H2]. apply Nat.ltb_lt in H1, H2. rewrite H1, H2. lia.
      * apply rep_es in He. destruct He as [-> [He _]].
        replace (e_dst e <? nx) with false by (symmetry; apply Nat.ltb_ge; lia). replace (e_dst e =? nx) with false by (symmetry; apply Nat.eqb_neq; lia).
        rewrite Nat.ltb_irrefl, Nat.eqb_refl. lia.
      * cbn [e_src e_dst]. pose proof (Hrk e0 He) as Hk0. rewrite Hd in Hk0. apply rep_ends in He. destruct He as [H1 _]. apply Nat.ltb_lt in H1.
        rewrite H1, Nat.ltb_irrefl, Nat.eqb_refl. lia.
    + apply rep_ids. destruct (Nat.eqb_spec r u); [right; lia|left; auto].
    + intros x Hx Hxr. apply rep_ids in Hx. apply in_map_iff. destruct Hx as [[Hx Hxu]|Hx].
      * destruct (Nat.eq_dec x r) as [->|Hxr'].
        { apply Nat.eqb_neq in Hxu. rewrite Hxu in Hxr. congruence. }
        pose proof (Hall x Hx Hxr') as Hin. apply in_map_iff in Hin. destruct Hin as [e [E He]]. exists e. split; auto. apply rep_edges. left. split; auto. congruence.
      * destruct (Nat.eq_dec x nx) as [->|Hxn].
        -- destruct (Nat.eqb_spec r u) as [->|Hru]; [congruence|].
           pose proof (Hall u rep_u (fun E => Hru (eq_sym E))) as Hin. apply in_map_iff in Hin. destruct Hin as [e [E He]].
           exists (mkEdge (e_src e) nx (e_lw e)). split; auto. apply rep_edges. right. right. exists e. auto.
        -- assert (Hin : In x (map e_dst es)) by (rewrite Hed; apply in_seq; lia). apply in_map_iff in Hin. destruct Hin as [e [E He]].
           exists e. split; auto. apply rep_edges. auto.
    + intros Hin. apply in_map_iff in Hin. destruct Hin as [e [E He]]. apply rep_edges in He. destruct He as [[He Hd]|[He|[e0 [He [Hd ->]]]]].
      * destruct (Nat.eqb_spec r u) as [Hru|Hru].
        -- apply rep_ends in He. lia.
        -- apply Htop. rewrite <- E. now apply in_map.
      * apply rep_es in He. destruct (Nat.eqb_spec r u) as [Hru|Hru]; [lia|]. apply Hlt in Hr. lia.
      * simpl in E. destruct (Nat.eqb_spec r u) as [Hru|Hru].
        -- apply Htop. rewrite Hru, <- Hd. now apply in_map.
        -- apply Hlt in Hr. lia.
  - intros e d' He Hk. apply rep_edges in He. destruct He as [[He Hd]|[He|[e0 [He [Hd ->]]]]].
    + rewrite rep_kind_old in Hk; [|now apply (wf_src g Hwf)|now apply rep_src_u]. now apply (tk_leaf _ _ Hcore e d' He).
    + apply rep_es in He. destruct He as [E _]. rewrite E, rep_kind_sum in Hk. discriminate.
    + simpl in Hk. rewrite rep_kind_old in Hk; [|now apply (wf_src g Hwf)|now apply rep_src_u]. now apply (tk_leaf _ _ Hcore e0 d' He).
  - intros x Hk. assert (Hx := Hk). apply node_kind_ids, rep_ids in Hx. destruct Hx as [[Hx Hxu]|Hx].
    + rewrite rep_kind_old in Hk by auto. intros E. pose proof (rep_out_old x Hx) as P. rewrite E in P. apply Permutation_nil in P.
      apply map_eq_nil in P. now apply (tk_sum _ _ Hcore x Hk).
    + destruct (Nat.eq_dec x nx) as [->|Hxn]; [rewrite rep_out_sum; apply rep_es_ne|].
      destruct (rep_kind_new x) as [pd [_ E]]; [lia|]. congruence.
  - intros e He Hk. apply rep_edges in He. destruct He as [[He Hd]|[He|[e0 [He [Hd ->]]]]].
    + rewrite rep_kind_old in Hk; [|now apply (wf_src g Hwf)|now apply rep_src_u]. now apply (tk_w _ _ Hcore).
    + apply rep_es in He. tauto.
    + simpl in *. rewrite rep_kind_old in Hk; [|now apply (wf_src g Hwf)|now apply rep_src_u]. now apply (tk_w _ _ Hcore).
Qed.

(** The same for circuits with shared units. *)
Lemma rep_wf : wf g'.
Proof.
  pose proof (Hlt u rep_u) as Hux. constructor.
  - apply rep_NoDup.
  - unfold g', replaced. cbn [g_edges]. rewrite !map_app. apply NoDup_app_intro; [apply NoDup_map_filter, Hwf| |].
    + apply NoDup_app_intro.
      * apply (NoDup_map_inv snd). rewrite map_map. change (NoDup (map e_dst es)). rewrite Hed. apply seq_NoDup.
      * unfold in_edges. assert (Nn := wf_edges g Hwf). revert Nn. generalize (g_edges g) as L. intros L Nn. induction L as [|e L IH]; cbn [filter map]; [constructor|].
        inversion Nn as [|? ? Hnot Nn']; subst. destruct (Nat.eqb_spec (e_dst e) u) as [E|E]; cbn [map]; [|now apply IH]. constructor; [|now apply IH].
        cbn [e_src e_dst]. intros X. rewrite map_map in X. apply in_map_iff in X. destruct X as [e' [E' X]]. apply filter_In in X. destruct X as [X Eu]. apply Nat.eqb_eq in Eu. cbn [e_src e_dst] in E'.
        apply Hnot. apply in_map_iff. exists e'. split; [|exact X]. injection E' as E'. congruence.
      * intros x Hx Hx'. apply in_map_iff in Hx. destruct Hx as [e [<- He]]. apply rep_es in He. apply in_map_iff in Hx'. destruct Hx' as [e1 [E1 He1]].
        apply in_map_iff in He1. destruct He1 as [e0 [<- He0]]. cbn [e_src e_dst] in E1. injection E1 as _ E1. lia.
    + intros x Hx Hx'. apply in_map_iff in Hx. destruct Hx as [e [<- He]]. apply filter_In in He. destruct He as [He _]. apply rep_ends in He.
      apply in_app_or in Hx'. destruct Hx' as [Hx'|Hx']; apply in_map_iff in Hx'; destruct Hx' as [e1 [E1 He1]].
      * apply rep_es in He1. injection E1 as E1 E2. lia.
      * apply in_map_iff in He1. destruct He1 as [e0 [<- He0]]. cbn [e_src e_dst] in E1. injection E1 as _ E1. lia.
  - intros e He. apply rep_ids. apply rep_edges in He. destruct He as [[He Hd]|[He|[e0 [He [Hd ->]]]]].
    + left. split; [now apply (wf_src g Hwf)|now apply rep_src_u].
    + apply rep_es in He. destruct He as [-> _]. right. lia.
    + left. simpl. split; [now apply (wf_src g Hwf)|now apply rep_src_u].
  - intros e He. apply rep_ids. apply rep_edges in He. destruct He as [[He Hd]|[He|[e0 [He [Hd ->]]]]].
    + left. split; [now apply (wf_dst g Hwf)|auto].
    + apply rep_es in He. right. lia.
    + right. simpl. lia.
Qed.

Lemma rep_lcore : lcore g r -> lcore g' (if r =? u then nx else r).
Proof.
  intros [_ [rk Hrk] Hroot _ Hs Hw]. pose proof (Hlt u rep_u) as Hux. destruct (root_spec _ _ Hroot) as [Hr Htop].
  assert (Hall : forall x, In x (node_ids g) -> x <> r -> In x (map e_dst (g_edges g))).
  { intros x Hx Hne'. destruct (in_dec Nat.eq_dec x (map e_dst (g_edges g))) as [Hd|Hd]; [exact Hd|]. exfalso. apply Hne'. now apply (root_unique g r). }
  constructor.
  - apply rep_wf.
  - exists (fun x => if x <? nx then 2 * rk x + 2 else if x =? nx then 2 * rk u + 2 else 0). intros e He.
    apply rep_edges in He. destruct He as [[He Hd]|[He|[e0 [He [Hd ->]]]]].
    + pose proof (Hrk e He). apply rep_ends in He. destruct He as [H1 H2]. apply Nat.ltb_lt in H1, H2. rewrite H1, H2. lia.
    + apply rep_es in He. destruct He as [-> [He _]].
      replace (e_dst e <? nx) with false by (symmetry; apply Nat.ltb_ge; lia). replace (e_dst e =? nx) with false by (symmetry; apply Nat.eqb_neq; lia).
      rewrite Nat.ltb_irrefl, Nat.eqb_refl. lia.
    + cbn [e_src e_dst]. pose proof (Hrk e0 He) as Hk0. rewrite Hd in Hk0. apply rep_ends in He. destruct He as [H1 _]. apply Nat.ltb_lt in H1.
      rewrite H1, Nat.ltb_irrefl, Nat.eqb_refl. lia.
  - apply root_intro; [apply rep_wf| | |].
    + apply rep_ids. destruct (Nat.eqb_spec r u); [right; lia|left; auto].
    + intros Hin. apply in_map_iff in Hin. destruct Hin as [e [E He]]. apply rep_edges in He. destruct He as [[He Hd]|[He|[e0 [He [Hd ->]]]]].
      * destruct (Nat.eqb_spec r u) as [Hru|Hru].
        -- apply rep_ends in He. lia.
        -- apply Htop. rewrite <- E. now apply in_map.
      * apply rep_es in He. destruct (Nat.eqb_spec r u) as [Hru|Hru]; [lia|]. apply Hlt in Hr. lia.
      * simpl in E. destruct (Nat.eqb_spec r u) as [Hru|Hru].
        -- apply Htop. rewrite Hru, <- Hd. now apply in_map.
        -- apply Hlt in Hr. lia.
    + intros x Hx Hxr. apply rep_ids in Hx. apply in_map_iff. destruct Hx as [[Hx Hxu]|Hx].
      * destruct (Nat.eq_dec x r) as [->|Hxr'].
        { apply Nat.eqb_neq in Hxu. rewrite Hxu in Hxr. congruence. }
        pose proof (Hall x Hx Hxr') as Hin. apply in_map_iff in Hin. destruct Hin as [e [E He]]. exists e. split; auto. apply rep_edges. left. split; auto. congruence.
      * destruct (Nat.eq_dec x nx) as [->|Hxn].
        -- destruct (Nat.eqb_spec r u) as [->|Hru]; [congruence|].
           pose proof (Hall u rep_u (fun E => Hru (eq_sym E))) as Hin. apply in_map_iff in Hin. destruct Hin as [e [E He]].
           exists (mkEdge (e_src e) nx (e_lw e)). split; auto. apply rep_edges. right. right. exists e. auto.
        -- assert (Hin : In x (map e_dst es)) by (rewrite Hed; apply in_seq; lia). apply in_map_iff in Hin. destruct Hin as [e [E He]].
           exists e. split; auto. apply rep_edges. auto.
  - intros e d' He Hk. apply rep_edges in He. destruct He as [[He Hd]|[He|[e0 [He [Hd ->]]]]].
    + rewrite rep_kind_old in Hk; [|now apply (wf_src g Hwf)|now apply rep_src_u]. now apply (Hlf e d' He).
    + apply rep_es in He. destruct He as [E _]. rewrite E, rep_kind_sum in Hk. discriminate.
    + simpl in Hk. rewrite rep_kind_old in Hk; [|now apply (wf_src g Hwf)|now apply rep_src_u]. now apply (Hlf e0 d' He).
  - intros x Hk. assert (Hx := Hk). apply node_kind_ids, rep_ids in Hx. destruct Hx as [[Hx Hxu]|Hx].
    + rewrite rep_kind_old in Hk by auto. intros E. pose proof (rep_out_old x Hx) as P. rewrite E in P. apply Permutation_nil in P.
      apply map_eq_nil in P. now apply (Hs x Hk).
    + destruct (Nat.eq_dec x nx) as [->|Hxn]; [rewrite rep_out_sum; apply rep_es_ne|].
      destruct (rep_kind_new x) as [pd [_ E]]; [lia|]. congruence.
  - intros e He Hk. apply rep_edges in He. destruct He as [[He Hd]|[He|[e0 [He [Hd ->]]]]].
    + rewrite rep_kind_old in Hk; [|now apply (wf_src g Hwf)|now apply rep_src_u]. now apply Hw.
    + apply rep_es in He. tauto.
    + simpl in *. rewrite rep_kind_old in Hk; [|now apply (wf_src g Hwf)|now apply rep_src_u]. now apply Hw.
Qed.
End Replaced.

(** What the pass needs to know about the shape of the circuit. *)
Record shape (core : graph D -> id -> Prop) : Prop := {
  sh_wf : forall g r, core g r -> wf g;
  sh_in : forall g r, core g r -> In r (node_ids g);
  sh_leaf : forall g r, core g r -> leaves_terminal g;
  sh_sum : forall g r, core g r -> forall u, node_kind g u = Some USum -> out_edges g u <> [];
  sh_w : forall g r, core g r -> forall e, In e (g_edges g) -> node_kind g (e_src e) = Some USum -> exists x, e_lw e = Some (Fin x);
  sh_set : forall g r u d d', core g r -> node_kind g u = Some (ULeaf d) -> core (set_kind g u (ULeaf d')) r;
  sh_rep : forall g r u d nx (l : list (num * D)) ns es, core g r -> node_kind g u = Some (ULeaf d) -> (forall x, In x (node_ids g) -> x < nx) -> l <> [] ->
    map fst ns = seq (S nx) (length l) -> Forall2 (fun n pd => snd n = ULeaf (snd pd)) ns l -> map e_dst es = seq (S nx) (length l) ->
    Forall (fun e => e_src e = nx /\ exists x, e_lw e = Some (Fin x)) es -> core (replaced g u nx ns es) (if r =? u then nx else r)
}.
End Replace.
