(** * Settled: circuits that simplify, conditioning on a sure event and marginalisation leave in a known form *)
From Coq Require Import List Arith Bool Lia Reals Lra Permutation Sorting.Sorted.
From Verif Require Import Num Graph GraphFacts Spec SpecFacts Circuit EvalFacts Simplify SimplifyFacts TreeProb TreeLocal Restrict
  MarginalFacts CondPass Conditional MoveFacts JaxLayerFacts.
Import ListNotations.
Local Set Bullet Behavior "Strict Subproofs".

Section Settled.
Context {D : Type}.
Implicit Types g : graph D.

Definition is_sum (t : pc D) : bool := match t with PSum _ => true | _ => false end.

(** No unit with a single child, no sum below a sum. *)
Fixpoint settled (t : pc D) : Prop :=
  match t with
  | PLeaf _ => True
  | PSum l => 2 <= length l /\ (forall wt, In wt l -> is_sum (snd wt) = false) /\ fold_right and True (map (fun wt => settled (snd wt)) l)
  | PProd l => 2 <= length l /\ fold_right and True (map settled l)
  end.

Lemma hered_settled : hereditary settled.
Proof.
  split; intros l H; cbn [settled] in H.
  - destruct H as [_ [_ H]]. now apply fold_and_Forall in H.
  - destruct H as [_ H]. now apply fold_and_Forall in H.
Qed.

Lemma Forall2_in_l {A B} (P : A -> B -> Prop) l l' a : Forall2 P l l' -> In a l -> exists b, In b l' /\ P a b.
Proof.
  induction 1 as [|x y l l' H HF IH]; intros Hin; [destruct Hin|]. destruct Hin as [->|Hin]; [exists y; split; [now left|auto]|].
  destruct (IH Hin) as [b [B1 B2]]. exists b. split; [now right|auto].
Qed.

Lemma is_sum_kind g u t : unfolds g u t -> is_sum t = false -> node_kind g u <> Some USum.
Proof. intros H. destruct H as [u d Hk|u ts Hk Hne HF|u ts Hk HF]; cbn; intros E; try discriminate; congruence. Qed.

(** A sum unit with at least two children, none of which is a sum, is left alone. *)
Lemma sum_stable g u : node_kind g u = Some USum -> 2 <= length (out_edges g u) ->
  (forall e, In e (out_edges g u) -> (exists x, e_lw e = Some (Fin x)) /\ node_kind g (e_dst e) <> Some USum) ->
  sum_simplify g u = Some g.
Proof.
  intros Hk Hl He. unfold sum_simplify.
  assert (E : match subcircuits g u with [c] => remove_node (connect_incoming_edges_to g u c) u
     | _ => match log_weighted_subcircuits g u with None => None | Some l => foldM (sum_merge u) l g end end =
    match log_weighted_subcircuits g u with None => None | Some l => foldM (sum_merge u) l g end).
  { unfold subcircuits. destruct (out_edges g u) as [|a [|b es]]; cbn in Hl; try lia. reflexivity. }
  rewrite E. unfold log_weighted_subcircuits.
  replace (mapM _ (out_edges g u)) with (Some (map (fun e => (match e_lw e with Some w => w | None => NaN end, e_dst e)) (out_edges g u))).
  - clear Hl E. induction (out_edges g u) as [|e es IH]; cbn [map foldM]; auto.
    destruct (He e (or_introl eq_refl)) as [[x Ex] Hn]. rewrite Ex. rewrite sum_merge_skip by auto. apply IH. intros e' H'. apply He. now right.
  - symmetry. apply mapM_Forall2. clear - He. induction (out_edges g u) as [|f l IH]; cbn [map]; constructor.
    + destruct (He f (or_introl eq_refl)) as [[y ->] _]. reflexivity.
    + apply IH. intros e' H'. apply He. now right.
Qed.

Lemma settled_stable dead g u t : unfolds g u t -> settled t -> fin_sums t -> all_leaves (fun d => dead d = false) t ->
  unit_simplify dead g u = Some g.
Proof.
  intros Hu Hs Hf Ha. unfold unit_simplify. destruct Hu as [u d Hk|u ts Hk Hne HF|u ts Hk HF]; rewrite Hk.
  - unfold leaf_simplify. cbn [all_leaves] in Ha. now rewrite Ha.
  - cbn [settled] in Hs. destruct Hs as [Hl [Hn _]]. apply sum_stable; auto.
    + now rewrite (Forall2_length_eq _ _ _ HF).
    + intros e He. destruct (Forall2_in_l _ _ _ _ HF He) as [wt [Hw [E1 E2]]]. split.
      * destruct Hf as [Hf _]. rewrite Forall_forall in Hf. specialize (Hf (fst wt) (in_map fst _ _ Hw)). rewrite E1.
        destruct (fst wt); cbn in Hf; try tauto. eauto.
      * eapply is_sum_kind; eauto.
  - cbn [settled] in Hs. destruct Hs as [Hl _]. rewrite <- (Forall2_length_eq _ _ _ HF) in Hl. unfold prod_simplify, subcircuits.
    destruct (out_edges g u) as [|a [|b es]]; cbn in Hl; try lia. cbn [map]. now rewrite prod_merges_noop.
Qed.

Lemma stable_loop dead g order : (forall u, In u order -> unit_simplify dead g u = Some g) -> foldM (unit_simplify dead) order g = Some g.
Proof. induction order as [|u o IH]; intros H; cbn [foldM]; auto. rewrite H by now left. apply IH. intros v Hv. apply H. now right. Qed.

(** simplify leaves a settled tree alone. *)
Lemma simplify_settled dead g r t : tree_circuit g r t -> settled t -> all_leaves (fun d => dead d = false) t -> simplify dead g = Some g.
Proof.
  intros H Hs Ha. destruct (tree_tinv g r (tc_tree _ _ _ H) (tc_leaf _ _ _ H) (tc_sum _ _ _ H) (tc_w _ _ _ H)) as [pos [order [Hb [_ [_ [Ho _]]]]]].
  unfold simplify. rewrite Hb. apply stable_loop. intros u Hu. apply Ho in Hu.
  destruct (tc_units (fun t => settled t /\ (fin_sums t /\ all_leaves (fun d => dead d = false) t)) g r t H) with (u := u) as [t' [H1 [H2 [H3 H4]]]]; auto.
  - apply hered_and; [apply hered_settled|]. apply hered_and; [apply hered_all_sums|apply hered_all_leaves].
  - split; [auto|split; [apply H|auto]].
  - eapply settled_stable; eauto.
Qed.

(** ** Collapsing one layer of single-child products *)
Lemma expand_children_fresh cs : forall vis next, NoDup cs -> (forall c, In c cs -> ~ In c vis) ->
  snd (expand_children cs vis next) = next ++ cs.
Proof.
  induction cs as [|c cs IH]; intros vis next Hnd Hf; cbn [expand_children]; [now rewrite app_nil_r|]. inversion Hnd; subst.
  replace (existsb (Nat.eqb c) vis) with false.
  - rewrite IH; [now rewrite <- app_assoc|auto|]. intros x Hx [->|Hv]; [tauto|]. apply (Hf x); auto. now right.
  - symmetry. destruct (existsb (Nat.eqb c) vis) eqn:E; auto. apply existsb_exists in E. destruct E as [x [Hx E]].
    apply Nat.eqb_eq in E. subst x. exfalso. apply (Hf c); auto. now left.
Qed.

(** The bottom-up order ends with the children of the root, from left to right, and the root. *)
Lemma bottom_up_tail g r : tree_shaped g r -> subcircuits g r <> [] -> exists pre, bottom_up g = Some (pre ++ subcircuits g r ++ [r]).
Proof.
  intros Ht Hne. pose proof Ht as [Hwf [Hac [Hr [Hnd [Hall Htop]]]]].
  destruct (bottom_up_spec g r Hwf (tree_root _ _ Ht)) as [ls [Hls [Hb _]]]. rewrite Hb.
  unfold layers_from in Hls. rewrite (proj2 (has_node_In g r) Hr) in Hls. rewrite bfs_loop_step in Hls by discriminate.
  assert (En : snd (expand_layer g [r] [r] []) = subcircuits g r).
  { cbn [expand_layer]. destruct (expand_children (subcircuits g r) [r] []) as [v n] eqn:E. cbn [snd].
    change n with (snd (v, n)). rewrite <- E. rewrite expand_children_fresh; auto.
    - unfold subcircuits, out_edges. now apply NoDup_map_filter.
    - intros c Hc [<-|[]]. apply Htop. apply subcircuits_In in Hc. destruct Hc as [e [He [_ E2]]]. rewrite <- E2. now apply in_map. }
  rewrite En in Hls. destruct (length (g_nodes g)) as [|f] eqn:El.
  { exfalso. unfold node_ids in Hr. destruct (g_nodes g); [destruct Hr|discriminate]. }
  rewrite bfs_loop_step in Hls by auto.
  destruct (bfs_loop g f _ _) as [ls'|] eqn:Eb; [|discriminate]. injection Hls as <-. cbn [rev]. exists (concat (rev ls')).
  rewrite !concat_app. cbn [concat]. rewrite !app_nil_r, <- app_assoc. reflexivity.
Qed.

Lemma unfolds_keep g g' (Q : id -> Prop) : (forall x, Q x -> node_kind g' x = node_kind g x /\ out_edges g' x = out_edges g x) ->
  (forall x e, Q x -> In e (out_edges g x) -> Q (e_dst e)) -> forall u t, unfolds g u t -> Q u -> unfolds g' u t.
Proof.
  intros HQ Hc. refine (unfolds_ind' g _ _ _ _); [intros u d Hk|intros u ts Hk Hne HF|intros u ts Hk HF]; intros Hu; destruct (HQ u Hu) as [E1 E2].
  - constructor. congruence.
  - constructor; [congruence|congruence|]. rewrite E2. eapply Forall2_impl_in; [|exact HF]. intros e wt He _ [A [_ B]]. split; auto. eapply B, Hc; eauto.
  - constructor; [congruence|]. rewrite E2. eapply Forall2_impl_in; [|exact HF]. intros e wt He _ [_ B]. eapply B, Hc; eauto.
Qed.

Lemma collapse_exact dead pos g r e e' : tinv pos g r -> In e (g_edges g) -> node_kind g (e_dst e) = Some UProd -> out_edges g (e_dst e) = [e'] ->
  unit_simplify dead g (e_dst e) = Some (contract g (e_dst e) [mkEdge (e_src e) (e_dst e') (e_lw e)]).
Proof.
  intros Ht He Hk Ho. pose proof Ht as []. unfold unit_simplify. rewrite Hk. unfold prod_simplify, subcircuits. rewrite Ho. cbn [map].
  assert (Hin : in_edges g (e_dst e) = [e]).
  { assert (H0 : In e (in_edges g (e_dst e))) by now apply in_edges_In.
    assert (Hall : forall f, In f (in_edges g (e_dst e)) -> f = e).
    { intros f Hf. apply in_edges_In in Hf. eapply tinv_parent; eauto; tauto. }
    assert (Hnd : NoDup (in_edges g (e_dst e))) by (apply NoDup_filter; eapply NoDup_map_NoDup; eauto).
    destruct (in_edges g (e_dst e)) as [|a [|b l]]; [destruct H0| |].
    - f_equal. apply Hall. now left.
    - inversion Hnd as [|? ? Hna _]; subst. exfalso. apply Hna. rewrite (Hall a), (Hall b); simpl; auto. }
  unfold connect_incoming_edges_to. rewrite Hin. rewrite <- (fresh_contract pos g r (e_dst e) e); auto.
  - intros f [<-|[]]. reflexivity.
  - rewrite Ho. reflexivity.
Qed.

Lemma collapse_loop dead pos r es : forall g done, tinv pos g r -> out_edges g r = es ++ done ->
  (forall e, In e es -> node_kind g (e_dst e) = Some UProd /\ exists e', out_edges g (e_dst e) = [e']) ->
  exists g' new, foldM (unit_simplify dead) (map e_dst es) g = Some g' /\ tinv pos g' r /\ out_edges g' r = done ++ new /\
    Forall2 (fun e f => e_lw f = e_lw e /\ exists e', out_edges g (e_dst e) = [e'] /\ e_dst f = e_dst e') es new /\
    (forall x, x <> r -> ~ In x (map e_dst es) -> node_kind g' x = node_kind g x /\ out_edges g' x = out_edges g x) /\
    node_kind g' r = node_kind g r.
Proof.
  induction es as [|e es IH]; intros g done Ht Ho Hes; cbn [map foldM].
  - exists g, []. rewrite app_nil_r. auto 10.
  - destruct (Hes e (or_introl eq_refl)) as [Hk [e' Ho']].
    assert (Hin : In e (g_edges g) /\ e_src e = r) by (apply out_edges_In; rewrite Ho; now left). destruct Hin as [Hin Esr].
    rewrite (collapse_exact dead pos g r e e' Ht Hin Hk Ho').
    set (nw := mkEdge (e_src e) (e_dst e') (e_lw e)). set (g1 := contract g (e_dst e) [nw]).
    assert (Hrs : r <> e_dst e) by (intros E; apply (ti_top _ _ _ Ht); rewrite E; now apply in_map).
    assert (Hnw : forall f, In f [nw] -> e_src f = e_src e) by (intros f [<-|[]]; reflexivity).
    assert (Hdst : map e_dst [nw] = map e_dst (out_edges g (e_dst e))) by (rewrite Ho'; reflexivity).
    assert (Ht1 : tinv pos g1 r).
    { apply (contract_tinv pos g r (e_dst e) e [nw]); auto; [discriminate|]. intros Hks f [<-|[]]. cbn. now apply (ti_w _ _ _ Ht). }
    assert (Ho1 : out_edges g1 r = es ++ (done ++ [nw])).
    { unfold g1. rewrite contract_out by auto. rewrite Ho. cbn [filter app]. rewrite Nat.eqb_refl. cbn [negb].
      replace (e_src nw =? r) with true by (symmetry; apply Nat.eqb_eq; exact Esr). rewrite app_assoc. f_equal. apply filter_all.
      intros f Hf. apply negb_true_iff, Nat.eqb_neq. intros E. pose proof (tinv_out_nd _ _ _ r Ht) as Hnd. rewrite Ho in Hnd. cbn in Hnd.
      inversion Hnd as [|? ? Hna _]; subst. apply Hna. rewrite <- E. now apply in_map. }
    assert (Hoth : forall x, x <> r -> x <> e_dst e -> node_kind g1 x = node_kind g x /\ out_edges g1 x = out_edges g x).
    { intros x Hx Hx'. split; [now apply contract_kind|]. apply (contract_out_other pos g r (e_dst e) e); auto. congruence. }
    assert (Hsep : forall f, In f es -> e_dst f <> r /\ e_dst f <> e_dst e).
    { intros f Hf. assert (Hfe : In f (g_edges g)) by (apply (out_edges_In g r); rewrite Ho; right; apply in_or_app; now left). split.
      - intros E. apply (ti_top _ _ _ Ht). rewrite <- E. now apply in_map.
      - intros E. pose proof (tinv_out_nd _ _ _ r Ht) as Hnd. rewrite Ho in Hnd. cbn in Hnd. inversion Hnd as [|? ? Hna _]; subst. apply Hna.
        rewrite <- E. apply in_map. apply in_or_app. now left. }
    destruct (IH g1 (done ++ [nw]) Ht1 Ho1) as [g' [new [G1 [G2 [G3 [G4 [G5 G6]]]]]]].
    { intros f Hf. destruct (Hsep f Hf) as [A B]. destruct (Hoth _ A B) as [-> ->]. apply Hes. now right. }
    exists g', (nw :: new). split; [exact G1|split; [exact G2|split; [|split; [|split]]]].
    + rewrite G3, <- app_assoc. reflexivity.
    + constructor; [split; [reflexivity|exists e'; auto]|]. eapply Forall2_impl_in; [|exact G4]. intros f f' Hf _ [A [e1 [B C]]]. split; auto.
      exists e1. destruct (Hsep f Hf) as [A1 B1]. destruct (Hoth _ A1 B1) as [_ E]. rewrite <- E. auto.
    + intros x Hx Hni. cbn [map] in Hni. destruct (G5 x Hx) as [A B]; [intros Hi; apply Hni; now right|]. destruct (Hoth x Hx) as [A' B']; [intros E; apply Hni; left; now symmetry|].
      rewrite A, B. auto.
    + rewrite G6. apply contract_kind. exact Hrs.
Qed.

Lemma simplify_collapse dead g r l : tree_circuit g r (PSum (map (fun wt => (fst wt, PProd [snd wt])) l)) -> 2 <= length l ->
  (forall wt, In wt l -> settled (snd wt) /\ is_sum (snd wt) = false /\ all_leaves (fun d => dead d = false) (snd wt)) ->
  exists g', simplify dead g = Some g' /\ tree_circuit g' r (PSum l).
Proof.
  intros H Hl Hs. pose proof H as [Htree Hleaf Hunf Hfin].
  destruct (tree_tinv g r Htree Hleaf (tc_sum _ _ _ H) (tc_w _ _ _ H)) as [pos [order [Hb [Ht [_ [Ho _]]]]]].
  inversion Hunf as [| ? ? Hk Hne HF|]; subst. pose proof (Forall2_length_eq _ _ _ HF) as HL. rewrite map_length in HL.
  assert (Hsub : subcircuits g r <> []).
  { unfold subcircuits. intros E. apply map_eq_nil in E. tauto. }
  destruct (bottom_up_tail g r Htree Hsub) as [pre Hpre]. rewrite Hpre in Hb. injection Hb as <-.
  pose proof (ti_top _ _ _ Ht) as Htop.
  assert (Hchild : forall e, In e (out_edges g r) -> exists wt e', In wt l /\ e_lw e = Some (fst wt) /\ node_kind g (e_dst e) = Some UProd /\
    out_edges g (e_dst e) = [e'] /\ unfolds g (e_dst e') (snd wt)).
  { intros e He. destruct (Forall2_in_l _ _ _ _ HF He) as [wt [Hw [E1 E2]]]. apply in_map_iff in Hw. destruct Hw as [wt0 [<- Hw]]. cbn [fst snd] in E1, E2.
    inversion E2 as [| | ? ? Hk2 HF2]; subst. inversion HF2 as [|e' ? es ? E3 HF3 E4]; subst. inversion HF3; subst. exists wt0, e'. auto 8. }
  assert (Hdeep : forall u, In u (node_ids g) -> u = r \/ In u (subcircuits g r) \/
    exists t', unfolds g u t' /\ settled t' /\ fin_sums t' /\ all_leaves (fun d => dead d = false) t').
  { intros u Hu. assert (Hre : reach g r u) by (apply root_reaches_all; auto; [apply Htree|apply Htree|now apply tree_root]). clear Hu.
    induction Hre as [|v e Hv IH He Es]; auto. right. assert (Hev : In e (out_edges g v)) by now apply out_edges_In.
    destruct IH as [->|[Hc|[t' [U1 U2]]]].
    - left. unfold subcircuits. now apply in_map.
    - right. unfold subcircuits in Hc. apply in_map_iff in Hc. destruct Hc as [e1 [E1 He1]]. destruct (Hchild e1 He1) as [wt [e2 [C1 [C2 [C3 [C4 C5]]]]]].
      rewrite E1 in C4. assert (e = e2) as -> by (rewrite C4 in Hev; destruct Hev as [->|[]]; auto).
      exists (snd wt). destruct (Hs wt C1) as [S1 [S2 S3]]. split; [auto|split; [auto|split; [|auto]]].
      destruct Hfin as [_ Hfin]. apply fold_and_Forall in Hfin. rewrite Forall_forall in Hfin. 
      specialize (Hfin (fst wt, PProd [snd wt])). cbn [snd all_sums map fold_right] in Hfin. apply Hfin. apply in_map_iff. exists wt. auto.
    - right. destruct (reach_hereditary (fun t => settled t /\ (fin_sums t /\ all_leaves (fun d => dead d = false) t)) g v t' (e_dst e)) as [t2 [T1 [T2 [T3 T4]]]]; auto.
      + apply hered_and; [apply hered_settled|]. apply hered_and; [apply hered_all_sums|apply hered_all_leaves].
      + eapply reach_step; eauto. constructor.
      + exists t2. auto. }
  assert (Hndo : NoDup (pre ++ subcircuits g r ++ [r])).
  { destruct (bottom_up_spec g r (proj1 Htree) (tree_root _ _ Htree)) as [ls [Hls [Hb _]]]. rewrite Hpre in Hb. injection Hb as ->.
    apply (Permutation_NoDup (l := concat ls)); [|eapply layers_from_NoDup; eauto].
    clear. induction ls as [|a ls IH]; simpl; auto. rewrite concat_app. simpl. rewrite app_nil_r. rewrite IH. apply Permutation_app_comm. }
  assert (Hst : foldM (unit_simplify dead) pre g = Some g).
  { apply stable_loop. intros u Hu. destruct (Hdeep u) as [->|[Hc|[t' [U1 [U2 [U3 U4]]]]]].
    - apply Ho. apply in_or_app. now left.
    - exfalso. apply in_split in Hu. destruct Hu as [a [b ->]]. rewrite <- app_assoc in Hndo. cbn in Hndo. apply NoDup_remove_2 in Hndo. apply Hndo.
      rewrite !in_app_iff. cbn. auto 6.
    - exfalso. apply in_split in Hu. destruct Hu as [a [b ->]]. rewrite <- app_assoc in Hndo. cbn in Hndo. apply NoDup_remove_2 in Hndo. apply Hndo.
      rewrite !in_app_iff. cbn. auto 6.
    - eapply settled_stable; eauto. }
  destruct (collapse_loop dead pos r (out_edges g r) g [] Ht) as [g' [new [G1 [G2 [G3 [G4 [G5 G6]]]]]]].
  { now rewrite app_nil_r. }
  { intros e He. destruct (Hchild e He) as [wt [e' C]]. split; [tauto|]. exists e'. tauto. }
  cbn [app] in G3.
  assert (HQ : forall x e, x <> r -> In e (out_edges g x) -> e_dst e <> r /\ ~ In (e_dst e) (subcircuits g r)).
  { intros x e Hx He. apply out_edges_In in He. destruct He as [He Es]. split.
    - intros E. apply Htop. rewrite <- E. now apply in_map.
    - intros Hc. apply subcircuits_In in Hc. destruct Hc as [e1 [A [B C]]]. assert (e1 = e) as -> by (apply (tinv_parent pos g r); auto). congruence. }
  assert (Hunf' : Forall2 (fun e wt => e_lw e = Some (fst wt) /\ unfolds g' (e_dst e) (snd wt) /\ node_kind g' (e_dst e) <> Some USum) new l).
  { clear - HF G4 G5 HQ Hs Hk Htop. assert (Hsub : forall e, In e (out_edges g r) -> e_dst e <> r).
    { intros e He E. apply Htop. rewrite <- E. apply in_map. apply out_edges_In in He. tauto. }
    revert HF Hs Hsub. assert (Hgen : forall es l, Forall2 (fun e f => e_lw f = e_lw e /\ exists e', out_edges g (e_dst e) = [e'] /\ e_dst f = e_dst e') es new ->
      Forall2 (fun e wt => e_lw e = Some (fst wt) /\ unfolds g (e_dst e) (snd wt)) es (map (fun wt => (fst wt, PProd [snd wt])) l) ->
      (forall wt, In wt l -> settled (snd wt) /\ is_sum (snd wt) = false /\ all_leaves (fun d => dead d = false) (snd wt)) ->
      (forall e, In e es -> e_dst e <> r) ->
      Forall2 (fun e wt => e_lw e = Some (fst wt) /\ unfolds g' (e_dst e) (snd wt) /\ node_kind g' (e_dst e) <> Some USum) new l).
    2:{ intros A B C. eapply Hgen; eauto. }
    clear G4 l. intros es l HN. revert l. induction HN as [|e f es new [N1 [e' [N2 N3]]] HN IH]; intros l HF Hs Hd.
    - destruct l as [|wt l]; [constructor|inversion HF].
    - destruct l as [|wt l]; cbn [map] in HF; inversion HF as [|? ? ? ? [F1 F2] HF']; subst. cbn [fst snd] in *.
      constructor; [|apply IH; auto; [intros wt' H'; apply Hs|intros e0 H0; apply Hd]; now right].
      inversion F2 as [| |? ? K2 HF2]; subst. rewrite N2 in HF2. inversion HF2 as [|? ? ? ? U1 _]; subst.
      destruct (HQ (e_dst e) e') as [Q1 Q2]; [apply Hd; now left|rewrite N2; now left|].
      assert (Hu' : unfolds g' (e_dst e') (snd wt)).
      { apply (unfolds_keep g g' (fun x => x <> r /\ ~ In x (subcircuits g r))) with (u := e_dst e'); auto.
        - intros x [X1 X2]. apply G5; auto.
        - intros x e0 [X1 _] X3. eapply HQ; eauto. }
      rewrite N1, N3. split; [auto|split; [auto|]]. eapply is_sum_kind; eauto. apply Hs. now left. }
  exists g'. split.
  - unfold simplify. rewrite Hpre, foldM_app, Hst, foldM_app. change (subcircuits g r) with (map e_dst (out_edges g r)). rewrite G1.
    cbn [foldM]. assert (unit_simplify dead g' r = Some g') as ->; auto. unfold unit_simplify. rewrite G6, Hk. apply sum_stable.
    + now rewrite G6.
    + rewrite G3, (Forall2_length_eq _ _ _ Hunf'). exact Hl.
    + rewrite G3. intros e He. destruct (Forall2_in_l _ _ _ _ Hunf' He) as [wt [Hw [A [B C]]]]. split; auto.
      destruct Hfin as [Hfin _]. rewrite map_map in Hfin. cbn [fst] in Hfin. rewrite Forall_forall in Hfin. specialize (Hfin (fst wt) (in_map fst _ _ Hw)).
      rewrite A. destruct (fst wt); cbn in Hfin; try tauto. eauto.
  - constructor.
    + eapply tinv_tree; eauto.
    + apply G2.
    + constructor; [congruence| |].
      * rewrite G3. intros E. rewrite E in Hunf'. inversion Hunf'. subst. cbn in Hl. lia.
      * rewrite G3. eapply Forall2_impl_in; [|exact Hunf']. cbn. tauto.
    + destruct Hfin as [F1 F2]. rewrite map_map in F1. cbn [fst] in F1. split; auto. rewrite map_map in F2.
      clear - F2. induction l as [|wt l IH]; cbn in *; auto. tauto.
Qed.

(** ** Normalising what is normalised *)
Lemma convex_total l : Forall lw_finite l -> Rsum (map wexp l) = 1%R -> nlog (nsum (map nexp l)) = Fin 0.
Proof.
  intros Hf Hs. assert (E : map nexp l = map Fin (map wexp l)).
  { rewrite map_map. apply map_ext_in. intros w Hw. rewrite Forall_forall in Hf. specialize (Hf w Hw). destruct w; cbn in *; tauto. }
  rewrite E, nsum_Fin, Hs, nlog_Fin_pos, ln_1 by lra. reflexivity.
Qed.

Definition unit_convex g (u : id) : Prop := exists ws, map e_lw (out_edges g u) = map Some ws /\ ws <> [] /\ Forall lw_finite ws /\ Rsum (map wexp ws) = 1%R.

Lemma unfolds_convex g u t : unfolds g u t -> node_kind g u = Some USum -> fin_sums t -> normalised t -> unit_convex g u.
Proof.
  intros H Hk Hf Hn. destruct H as [u d Hk'|u ts Hk' Hne HF|u ts Hk' HF]; try congruence. exists (map fst ts).
  destruct Hf as [Hf _], Hn as [[_ Hn] _]. split; [|split; [|split; [auto|auto]]].
  - clear - HF. induction HF as [|e wt es ts [H _] HF IH]; cbn; auto. now rewrite H, IH.
  - intros E. apply map_eq_nil in E. subst. inversion HF. congruence.
Qed.

Lemma sum_normalize_id g u : unit_convex g u -> sum_normalize g u = Some g.
Proof.
  intros [ws [E [Hne [Hf Hs]]]]. unfold sum_normalize, log_weighted_subcircuits.
  assert (Hm : mapM (fun e => match e_lw e with Some w => Some (w, e_dst e) | None => None end) (out_edges g u) = Some (combine ws (map e_dst (out_edges g u)))).
  { apply mapM_Forall2. clear - E. revert ws E. induction (out_edges g u) as [|e es IH]; intros [|w ws] E; cbn in E; try discriminate; constructor.
    - injection E as E _. now rewrite E.
    - apply IH. injection E as _ E. exact E. }
  rewrite Hm.
  assert (Hlen : length ws = length (map e_dst (out_edges g u))).
  { rewrite map_length. apply (f_equal (@length _)) in E. rewrite !map_length in E. auto. }
  assert (Hfst : map fst (combine ws (map e_dst (out_edges g u))) = ws).
  { clear - Hlen. revert Hlen. generalize (map e_dst (out_edges g u)). induction ws as [|w ws IH]; intros [|d l] H; cbn in *; try discriminate; auto. f_equal. apply IH. lia. }
  destruct (combine ws (map e_dst (out_edges g u))) as [|p l] eqn:Ec; [cbn in Hfst; congruence|]. rewrite <- Ec in *. clear Ec p l. rewrite Hfst.
  unfold logsumexp. rewrite convex_total by auto. cbv zeta. f_equal. unfold set_weights. destruct g as [ns es]. cbn [g_nodes g_edges] in *. f_equal.
  transitivity (map (fun e : edge => e) es); [|apply map_id]. apply map_ext_in. intros e He. destruct (e_src e =? u) eqn:Es; auto.
  assert (He' : In e (out_edges (mkGraph ns es) u)) by (apply out_edges_In; split; [exact He|now apply Nat.eqb_eq]).
  apply (in_map e_lw) in He'. rewrite E in He'. apply in_map_iff in He'. destruct He' as [w [Ew Hw]]. rewrite Forall_forall in Hf. specialize (Hf w Hw).
  destruct e as [a b lw]. cbn [e_src e_dst e_lw] in *. subst lw. cbn [option_map]. destruct w as [| |x|]; cbn in Hf; try tauto.
  f_equal. f_equal. cbn. f_equal. lra.
Qed.

Lemma normalize_id g : NoDup (node_ids g) -> (forall u, node_kind g u = Some USum -> unit_convex g u) -> normalize g = Some g.
Proof.
  intros Hnd H. unfold normalize. assert (Hs : forall u, In u (sum_ids g) -> node_kind g u = Some USum).
  { intros u Hu. unfold sum_ids in Hu. apply in_map_iff in Hu. destruct Hu as [[v k] [E Hin]]. apply filter_In in Hin. destruct Hin as [Hin Hk].
    cbn in E, Hk. subst v. destruct k; try discriminate. now apply node_kind_NoDup. }
  induction (sum_ids g) as [|u us IH]; cbn [foldM]; auto. rewrite sum_normalize_id; [|apply H, Hs; now left]. apply IH. intros v Hv. apply Hs. now right.
Qed.

(** ** Conditioning on an event that contains everything *)
Section Sure.
Variable lcond : D -> option (lres D).
Variable f : D -> D.

Definition sure (d : D) : Prop := lcond d = Some (LOne (f d) (Fin 0)).

Definition swap (k : ukind D) : ukind D := match k with ULeaf d => ULeaf (f d) | USum => USum | UProd => UProd end.

Record frame g g1 (done : list id) : Prop := {
  fr_ids : node_ids g1 = node_ids g;
  fr_edges : g_edges g1 = g_edges g;
  fr_done : forall u, In u done -> node_kind g1 u = option_map swap (node_kind g u);
  fr_todo : forall u, ~ In u done -> node_kind g1 u = node_kind g u
}.

Lemma frame_out g g1 done u : frame g g1 done -> out_edges g1 u = out_edges g u.
Proof. intros []. unfold out_edges. now rewrite fr_edges0. Qed.

Lemma sure_pass g nx : (forall u, In u (node_ids g) -> exists t, unfolds g u t /\ all_leaves sure t /\ fin_sums t /\ normalised t) ->
  forall rest done g1 (st : store num), frame g g1 done -> (forall u, In u done -> st u = Some (Fin 0)) ->
  (forall u, In u rest -> In u (node_ids g)) -> NoDup (done ++ rest) -> topo_up g (done ++ rest) ->
  exists g2 st2, foldM (unit_conditional lcond) rest (g1, st, nx) = Some (g2, st2, nx) /\ frame g g2 (done ++ rest) /\
    (forall u, In u (done ++ rest) -> st2 u = Some (Fin 0)).
Proof.
  intros Hun. induction rest as [|u rest IH]; intros done g1 st Hfr Hst Hin Hnd Htopo; cbn [foldM].
  - exists g1, st. rewrite app_nil_r. auto.
  - destruct (Hun u (Hin u (or_introl eq_refl))) as [t [Hu [Ha [Hf Hn]]]].
    assert (Hud : ~ In u done) by (apply NoDup_remove_2 in Hnd; intros X; apply Hnd, in_or_app; now left).
    assert (Hch : forall e, In e (out_edges g u) -> st (e_dst e) = Some (Fin 0)).
    { intros e He. apply Hst. eapply Htopo; [reflexivity|]. unfold subcircuits. now apply in_map. }
    assert (Hnext : forall g2 st2, unit_conditional lcond (g1, st, nx) u = Some (g2, st2, nx) -> frame g g2 (done ++ [u]) ->
      (forall v, In v (done ++ [u]) -> st2 v = Some (Fin 0)) -> exists g3 st3,
      match unit_conditional lcond (g1, st, nx) u with None => None | Some s => foldM (unit_conditional lcond) rest s end = Some (g3, st3, nx) /\
      frame g g3 (done ++ u :: rest) /\ (forall v, In v (done ++ u :: rest) -> st3 v = Some (Fin 0))).
    { intros g2 st2 E Hfr2 Hst2. rewrite E. replace (done ++ u :: rest) with ((done ++ [u]) ++ rest) in * by now rewrite <- app_assoc.
      apply IH; auto. intros v Hv. apply Hin. now right. }
    assert (Hupd : forall v, In v (done ++ [u]) -> upd st u (Fin 0) v = Some (Fin 0)).
    { intros v Hv. destruct (Nat.eq_dec v u) as [->|Hne]; [apply upd_same|]. rewrite upd_other by auto. apply Hst.
      apply in_app_or in Hv. destruct Hv as [|[->|[]]]; tauto. }
    assert (Hkeep : (forall d, node_kind g u <> Some (ULeaf d)) -> frame g g1 (done ++ [u])).
    { intros Hk. constructor; try apply Hfr.
      - intros v Hv. destruct (Nat.eq_dec v u) as [->|Hne].
        + rewrite (fr_todo _ _ _ Hfr) by auto. destruct (node_kind g u) as [[d| |]|] eqn:E; auto. exfalso. now apply (Hk d).
        + apply (fr_done _ _ _ Hfr). apply in_app_or in Hv. destruct Hv as [|[->|[]]]; tauto.
      - intros v Hv. apply (fr_todo _ _ _ Hfr). intros X. apply Hv, in_or_app. now left. }
    pose proof (fr_todo _ _ _ Hfr u Hud) as Hk1. inversion Hu as [? d Hk|? ts Hk Hne HF|? ts Hk HF]; subst; rewrite Hk in Hk1.
    + apply (Hnext (set_kind g1 u (ULeaf (f d))) (upd st u (Fin 0))); auto.
      * unfold unit_conditional. cbn [fst snd]. rewrite Hk1. unfold leaf_conditional. cbn [all_leaves] in Ha. unfold sure in Ha. rewrite Ha. reflexivity.
      * constructor.
        -- rewrite set_kind_ids. apply Hfr.
        -- apply Hfr.
        -- intros v Hv. destruct (Nat.eq_dec v u) as [->|Hne].
           ++ rewrite Hk. apply set_kind_same. rewrite (fr_ids _ _ _ Hfr). eapply node_kind_ids; eauto.
           ++ rewrite set_kind_other by auto. apply (fr_done _ _ _ Hfr). apply in_app_or in Hv. destruct Hv as [|[->|[]]]; tauto.
        -- intros v Hv. rewrite set_kind_other; [|intros ->; apply Hv, in_or_app; right; now left]. apply (fr_todo _ _ _ Hfr).
           intros X. apply Hv, in_or_app. now left.
    + apply (Hnext g1 (upd st u (Fin 0))); auto; [|apply Hkeep; intros d; congruence].
      unfold unit_conditional. cbn [fst snd]. rewrite Hk1. unfold eval_unit. rewrite Hk1, (frame_out _ _ _ _ Hfr).
      destruct (unfolds_convex g u _ Hu Hk Hf Hn) as [ws [E [Hws [Hfw Hsw]]]].
      assert (Hm : mapM (fun e => match e_lw e, st (e_dst e) with Some w, Some v => Some (w, v) | _, _ => None end) (out_edges g u) =
        Some (map (fun w => (w, Fin 0)) ws)).
      { apply mapM_Forall2. clear - E Hch. revert ws E. induction (out_edges g u) as [|e es IH]; intros [|w ws] E; cbn in E; try discriminate; cbn [map]; constructor.
        - injection E as E _. rewrite E, Hch by now left. reflexivity.
        - apply IH; [intros e' H'; apply Hch; now right|]. injection E as _ E. exact E. }
      rewrite Hm. destruct ws as [|w0 ws0]; [congruence|]. set (ws := w0 :: ws0) in *. unfold sum_log_forward. cbn [map]. 
      change ((w0, Fin 0) :: map (fun w => (w, Fin 0)) ws0) with (map (fun w => (w, Fin 0)) ws). rewrite map_map. cbn [fst snd].
      unfold logsumexp. rewrite map_map.
      replace (map (fun x => nexp (nadd x (Fin 0))) ws) with (map nexp ws); [now rewrite convex_total|].
      apply map_ext. intros w. rewrite nadd_comm, nadd_0_l. reflexivity.
    + apply (Hnext g1 (upd st u (Fin 0))); auto; [|apply Hkeep; intros d; congruence].
      unfold unit_conditional. cbn [fst snd]. rewrite Hk1. unfold eval_unit. rewrite Hk1, (frame_out _ _ _ _ Hfr).
      assert (Hm : mapM (fun e => st (e_dst e)) (out_edges g u) = Some (map (fun _ => Fin 0) (out_edges g u))).
      { apply mapM_Forall2. clear - Hch. induction (out_edges g u) as [|e es IH]; cbn [map]; constructor.
        - apply Hch. now left.
        - apply IH. intros e' H'. apply Hch. now right. }
      rewrite Hm. unfold prod_log_forward.
      assert (Hz : forall l : list edge, nsum (map (fun _ => Fin 0) l) = Fin 0).
      { induction l as [|e l IHl]; cbn [map]; [reflexivity|]. change (nsum (Fin 0 :: map (fun _ : edge => Fin 0) l)) with (nadd (Fin 0) (nsum (map (fun _ : edge => Fin 0) l))).
        rewrite IHl. apply nadd_0_l. }
      rewrite Hz. reflexivity.
Qed.

Lemma tmap_settled t : settled t -> settled (tmap f t).
Proof.
  induction t as [d|l IH|l IH] using pc_ind'; intros H; auto.
  - cbn [settled tmap] in *. rewrite map_length. destruct H as [H1 [H2 H3]]. split; [auto|split].
    + intros wt Hw. apply in_map_iff in Hw. destruct Hw as [wt0 [<- Hw]]. cbn [snd]. specialize (H2 wt0 Hw). destruct (snd wt0); auto.
    + rewrite map_map. cbn [snd]. apply fold_and_Forall. apply fold_and_Forall in H3. rewrite Forall_forall in *. intros wt Hw. apply IH; auto.
  - cbn [settled tmap] in *. rewrite map_length. destruct H as [H1 H3]. split; [auto|]. apply fold_and_Forall. apply fold_and_Forall in H3. 
    rewrite Forall_forall in *. intros wt Hw. apply in_map_iff in Hw. destruct Hw as [wt0 [<- Hw]]. apply IH; auto.
Qed.

Lemma frame_unfolds g g2 : (forall u, node_kind g2 u = option_map swap (node_kind g u)) -> g_edges g2 = g_edges g ->
  forall u t, unfolds g u t -> unfolds g2 u (tmap f t).
Proof.
  intros Hk He. assert (Ho : forall u, out_edges g2 u = out_edges g u) by (intros u; unfold out_edges; now rewrite He).
  refine (unfolds_ind' g _ _ _ _); [intros u d E|intros u ts E Hne HF|intros u ts E HF]; cbn [tmap].
  - constructor. now rewrite Hk, E.
  - constructor; [now rewrite Hk, E|now rewrite Ho|]. rewrite Ho. clear - HF. induction HF as [|e wt es ts [A [_ B]] HF IH]; cbn [map]; constructor; auto.
  - constructor; [now rewrite Hk, E|]. rewrite Ho. clear - HF. induction HF as [|e wt es ts [_ B] HF IH]; cbn [map]; constructor; auto.
Qed.

(** Conditioning a settled normalised tree on a sure event exchanges the leaves and nothing else. *)
Theorem conditional_sure g r t st : tree_circuit g r t -> settled t -> normalised t -> all_leaves sure t ->
  exists g', conditional_simple lcond g st = Some (Some g', Fin 0) /\ tree_circuit g' r (tmap f t).
Proof.
  intros H Hs Hn Ha. pose proof H as [Htree Hleaf Hunf Hfin]. pose proof Htree as [Hwf [Hac [Hr [Hnd [Hall Htop]]]]].
  destruct (bottom_up_spec g r Hwf (tree_root _ _ Htree)) as [ls [Hls [Hbu _]]]. set (order := concat (rev ls)) in *.
  assert (Ho : forall u, In u order <-> In u (node_ids g)).
  { intros u. unfold order. rewrite concat_rev_In, (layers_from_In g r ls Hls). split.
    - intros Hre. induction Hre; auto. now apply (wf_dst g Hwf).
    - apply root_reaches_all; auto. now apply tree_root. }
  assert (Hndo : NoDup order).
  { unfold order. apply (Permutation_NoDup (l := concat ls)); [|eapply layers_from_NoDup; eauto].
    clear. induction ls as [|a ls IH]; simpl; auto. rewrite concat_app. simpl. rewrite app_nil_r. rewrite IH. apply Permutation_app_comm. }
  assert (Htopo : topo_up g order) by (eapply graded_topo_up; eauto; now apply tree_graded).
  destruct (sure_pass g (S (list_max (node_ids g)))) with (rest := order) (done := @nil id) (g1 := g) (st := st) as [g2 [st2 [E [Hfr Hst]]]]; auto.
  { intros u Hu. destruct (tc_units (fun t => all_leaves sure t /\ (fin_sums t /\ normalised t)) g r t H) with (u := u) as [t' [T1 T2]]; auto.
    - apply hered_and; [apply hered_all_leaves|]. apply hered_and; apply hered_all_sums.
    - exists t'. tauto. }
  { constructor; auto. intros u []. }
  { intros u []. }
  { intros u Hu. now apply Ho. }
  cbn [app] in Hfr, Hst.
  assert (Hk2 : forall u, node_kind g2 u = option_map swap (node_kind g u)).
  { intros u. destruct (in_dec Nat.eq_dec u order) as [Hu|Hu]; [now apply (fr_done _ _ _ Hfr)|].
    rewrite (fr_todo _ _ _ Hfr) by auto. destruct (node_kind g u) eqn:Ek; auto. exfalso. apply Hu, Ho. eapply node_kind_ids; eauto. }
  destruct Hfr as [Hids Hed _ _].
  assert (H2 : tree_circuit g2 r (tmap f t)).
  { constructor.
    - unfold tree_shaped, acyclic. rewrite Hed, Hids. split; [|auto]. destruct Hwf. constructor; rewrite ?Hids, ?Hed; auto.
    - intros e d He Hk. rewrite Hed in He. rewrite Hk2 in Hk. destruct (node_kind g (e_src e)) as [[d'| |]|] eqn:Ek; try discriminate. now apply (Hleaf e d' He).
    - now apply (frame_unfolds g g2).
    - now apply tmap_all_sums. }
  exists g2. split; [|exact H2]. unfold conditional_simple. rewrite Hbu. fold order. rewrite E. unfold conditional_finish.
  rewrite (tree_root _ _ (tc_tree _ _ _ H2)).
  destruct (tree_tinv g2 r (tc_tree _ _ _ H2) (tc_leaf _ _ _ H2) (tc_sum _ _ _ H2) (tc_w _ _ _ H2)) as [pos [order2 [Hb2 [_ [_ [Ho2 _]]]]]].
  rewrite Hb2. rewrite filter_nil.
  2:{ intros u Hu. apply Ho2 in Hu. rewrite Hids in Hu. apply Ho in Hu. unfold result_is_ninf. now rewrite (Hst u Hu). }
  cbn [foldM]. rewrite (proj2 (has_node_In g2 r)) by (rewrite Hids; exact Hr). cbn [negb].
  rewrite (remove_unreachable_id g2 r); [|apply H2|apply (tc_tree _ _ _ H2)|apply tree_root, H2].
  rewrite (simplify_settled (fun _ => false) g2 r (tmap f t) H2); [|now apply tmap_settled|].
  2:{ clear. induction (tmap f t) as [d|l IH|l IH] using pc_ind'; cbn [all_leaves]; auto; apply fold_and_Forall; rewrite Forall_forall in *; auto. }
  rewrite normalize_id.
  - rewrite (Hst r); auto. now apply Ho.
  - rewrite Hids. apply Hwf.
  - intros u Hu. destruct (tc_units (fun t => fin_sums t /\ normalised t) g2 r (tmap f t) H2) with (u := u) as [t' [T1 [T2 T3]]].
    + apply hered_and; apply hered_all_sums.
    + split; [apply H2|now apply tmap_all_sums].
    + eapply node_kind_ids; eauto.
    + eapply unfolds_convex; eauto.
Qed.
End Sure.

(** ** Marginals *)
Section Marginal.
Variable kp : D -> bool.
Variable dead : D -> bool.
Variable dmarg : list nat -> D -> option D.
Variable vs : list nat.
Hypothesis Hdm : forall d, dmarg vs d = if kp d then Some d else None.

Lemma marginal_pruned g r t : tree_circuit g r t -> survives kp t = true ->
  exists g1, tree_circuit g1 r (prune (survives kp) t) /\
    marginal_in_place dead dmarg vs g = match simplify dead g1 with None => None | Some g3 => Some (Some g3) end.
Proof.
  intros H Es. pose proof H as [Htree Hleaf Hunf Hfin]. pose proof Htree as [Hwf [Hac [Hr [Hnd [Hall Htop]]]]].
  pose proof (tree_root _ _ Htree) as Hroot.
  destruct (bottom_up_spec g r Hwf Hroot) as [ls [Hls [Hbu _]]]. set (order := concat (rev ls)) in *.
  assert (Ho : forall u, In u order <-> In u (node_ids g)).
  { intros u. unfold order. rewrite concat_rev_In, (layers_from_In g r ls Hls). split.
    - intros Hre. induction Hre; auto. now apply (wf_dst g Hwf).
    - now apply root_reaches_all. }
  assert (Hndo : NoDup order).
  { unfold order. apply (Permutation_NoDup (l := concat ls)); [|eapply layers_from_NoDup; eauto].
    clear. induction ls as [|a ls IH]; simpl; auto. rewrite concat_app. simpl. rewrite app_nil_r. rewrite IH. apply Permutation_app_comm. }
  assert (Htopo : topo_up g order) by (eapply graded_topo_up; eauto; now apply tree_graded).
  assert (Hunits : forall u, In u (node_ids g) -> exists t, unfolds g u t).
  { intros u Hin. destruct (tc_units (fun _ => True) g r t H hered_True I u Hin) as [t0 [Ht0 _]]. eauto. }
  assert (Hlast : exists pre, order = pre ++ [r]).
  { unfold layers_from in Hls. rewrite (proj2 (has_node_In g r) Hr) in Hls. rewrite bfs_loop_step in Hls by discriminate.
    destruct (bfs_loop g _ _ _) as [ls'|]; [|discriminate]. injection Hls as <-. exists (concat (rev ls')). unfold order. cbn [rev]. now rewrite concat_app. }
  destruct Hlast as [pre Hlast].
  pose proof (marginal_pass kp dmarg vs Hdm g Hwf Hunits order (@nil id) None) as Hpass.
  assert (Hk0 : keepN (fun u => negb (existsb (Nat.eqb u) (@nil id)) || surv kp g u) g = g) by (apply keepN_all; auto).
  rewrite Hk0 in Hpass. specialize (Hpass (fun u Hu' => proj1 (Ho u) Hu') Hndo Htopo).
  assert (Hk1 : keepN (fun u => negb (existsb (Nat.eqb u) ([] ++ order)) || surv kp g u) g = keepN (surv kp g) g).
  { apply keepN_ext; auto. intros u Hin. apply Ho in Hin. simpl. replace (existsb (Nat.eqb u) order) with true; auto. symmetry.
    apply existsb_exists. exists u. split; auto. apply Nat.eqb_refl. }
  rewrite Hk1, Hlast, rev_app_distr in Hpass. simpl in Hpass. rewrite <- Hlast in Hpass.
  assert (Hsr : surv kp g r = survives kp t) by now apply surv_unfolds.
  set (g1 := keepN (surv kp g) g) in *.
  assert (Hedge : forall e t', In e (g_edges g) -> surv kp g (e_src e) = true -> unfolds g (e_dst e) t' -> surv kp g (e_dst e) = survives kp t').
  { intros e t' _ _ Ht'. now apply surv_unfolds. }
  assert (Hup : forall e, In e (g_edges g) -> surv kp g (e_dst e) = true -> surv kp g (e_src e) = true).
  { intros e He Hs'. destruct (Hunits (e_src e)) as [ts Hts]; [now apply (wf_src g Hwf)|].
    rewrite (surv_children kp g (e_src e) ts Hts).
    - apply existsb_exists. exists (e_dst e). split; auto. apply subcircuits_In. eauto.
    - intros d. eapply Hleaf; eauto. }
  assert (H1 : tree_circuit g1 r (prune (survives kp) t)).
  { constructor.
    - apply keepN_tree; auto. now rewrite Hsr.
    - now apply keepN_leaves.
    - apply prune_unfolds; auto. now rewrite Hsr.
    - now apply prune_fin. }
  exists g1. split; [exact H1|]. unfold marginal_in_place, marginal_loop. rewrite Hbu. fold order. rewrite Hpass, Hsr, Es.
  rewrite (remove_unreachable_id g1 r); [|apply H1|apply (tc_tree _ _ _ H1)|apply tree_root, H1]. reflexivity.
Qed.
End Marginal.
End Settled.
