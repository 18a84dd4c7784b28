(** * MixtureFacts: replacing a leaf by a sum of leaves in a layered circuit *)
From Coq Require Import List Arith Bool Lia ZArith Reals Lra Permutation.
From Verif Require Import Num Graph GraphFacts Spec SpecFacts Circuit EvalFacts VarFacts Interval Dist DistFacts TreeProb Simplify SimplifyFacts
  TreeLocal Conditional ConditionalFacts PropertiesProb Support SupportFacts ModeFacts PropertiesSupport Mixture.
Import ListNotations.
Local Open Scope nat_scope.

Lemma Forall2_src {D} (nx : nat) es (l : list (num * D)) e : Forall2 (fun e pd => e_src e = nx /\ e_lw e = Some (fst pd)) es l -> In e es -> e_src e = nx.
Proof. induction 1 as [|a pd es l [A _] _ IH]; [intros []|]. intros [<-|He]; auto. Qed.

Lemma new_leaves {D} (h : graph D) (nx : nat) es l : Forall2 (fun e pd => e_src e = nx /\ e_lw e = Some (fst pd)) es l ->
  forall ns : list (id * ukind D), (forall n, In n ns -> node_kind h (fst n) = Some (snd n)) -> map fst ns = map e_dst es ->
  Forall2 (fun n pd => snd n = ULeaf (snd pd)) ns l ->
  Forall2 (fun e wt => e_lw e = Some (fst wt) /\ unfolds h (e_dst e) (snd wt)) es (map (fun pd => (fst pd, PLeaf (snd pd))) l).
Proof.
  induction 1 as [|e pd es l [_ He] H IH]; intros ns Hin Hsame Hnk; [constructor|].
  inversion Hnk as [|n ? ns' ? En Hnk']; subst. simpl in Hsame. injection Hsame as E1 E2. constructor.
  - cbn [fst snd]. split; auto. constructor. rewrite <- E1, Hin by now left. now rewrite En.
  - apply (IH ns'); auto. intros n' Hn'. apply Hin. now right.
Qed.

Section Replace.
Context {D : Type}.
Variables (g : graph D) (r u : id) (d : D) (nx : nat) (l : list (num * D)) (ns : list (id * ukind D)) (es : list edge).
Hypothesis Hwf : wf g.
Hypothesis Hlf : leaves_terminal g.
Hypothesis Hku : node_kind g u = Some (ULeaf d).
Hypothesis Hlt : forall x, In x (node_ids g) -> x < nx.
Hypothesis Hne : l <> [].
Hypothesis Hns : map fst ns = seq (S nx) (length l).
Hypothesis Hnk : Forall2 (fun n pd => snd n = ULeaf (snd pd)) ns l.
Hypothesis Hed : map e_dst es = seq (S nx) (length l).
Hypothesis Hes : Forall2 (fun e pd => e_src e = nx /\ e_lw e = Some (fst pd)) es l.
Let g' := replaced g u nx ns es.

Lemma rp_u : In u (node_ids g).
Proof. eapply node_kind_ids; eauto. Qed.

Lemma rp_src_u e : In e (g_edges g) -> e_src e <> u.
Proof. intros He E. apply (Hlf e d He). rewrite E. exact Hku. Qed.

Lemma rp_ends e : In e (g_edges g) -> e_src e < nx /\ e_dst e < nx.
Proof. intros He. split; apply Hlt; [now apply (wf_src g Hwf)|now apply (wf_dst g Hwf)]. Qed.

Lemma rp_es e : In e es -> e_src e = nx /\ S nx <= e_dst e < S nx + length l.
Proof.
  intros He. split.
  - eapply Forall2_src; eauto.
  - apply (in_map e_dst) in He. rewrite Hed in He. now apply in_seq in He.
Qed.

Lemma rp_ids x : In x (node_ids g') <-> (In x (node_ids g) /\ x <> u) \/ (nx <= x < S nx + length l).
Proof.
  unfold g', replaced. rewrite node_ids_app, in_app_iff. cbn [map fst]. rewrite Hns.
  assert (E : In x (map fst (filter (fun p => negb (fst p =? u)) (g_nodes g))) <-> In x (node_ids g) /\ x <> u) by apply (drop_node_ids g u x).
  rewrite E. change (In x (nx :: seq (S nx) (length l))) with (In x (seq nx (S (length l)))). rewrite in_seq.
  replace (nx + S (length l)) with (S nx + length l) by lia. tauto.
Qed.

Lemma rp_NoDup : NoDup (node_ids g').
Proof.
  unfold g', replaced. rewrite node_ids_app. apply NoDup_app_intro.
  - apply NoDup_map_filter. apply Hwf.
  - cbn [map fst]. rewrite Hns. change (NoDup (seq nx (S (length l)))). apply seq_NoDup.
  - intros x Hx Hx'. cbn [map fst] in Hx'. rewrite Hns in Hx'. change (In x (seq nx (S (length l)))) in Hx'. apply in_seq in Hx'.
    assert (In x (node_ids g)) by (apply (drop_node_ids g u x) in Hx; tauto). apply Hlt in H. lia.
Qed.

Lemma rp_edges e : In e (g_edges g') <-> (In e (g_edges g) /\ e_dst e <> u) \/ In e es \/
  (exists e0, In e0 (g_edges g) /\ e_dst e0 = u /\ e = mkEdge (e_src e0) nx (e_lw e0)).
Proof.
  unfold g', replaced. cbn [g_edges]. rewrite !in_app_iff, filter_In, keeps_spec, in_map_iff. split.
  - intros [[A [B C]]|[A|[e0 [<- A]]]]; auto. apply in_edges_In in A. right. right. exists e0. tauto.
  - intros [[A B]|[A|[e0 [A [B ->]]]]]; auto.
    + left. split; [auto|split; [now apply rp_src_u|auto]].
    + right. right. exists e0. split; auto. apply in_edges_In. auto.
Qed.

Lemma rp_kind_old x : In x (node_ids g) -> x <> u -> node_kind g' x = node_kind g x.
Proof.
  intros Hx Hxu. rewrite <- (drop_node_kind g u x Hxu). unfold node_kind, drop_node, g', replaced. cbn [g_nodes]. rewrite find_app.
  destruct (find _ (filter _ _)) as [p|] eqn:E; auto. cbn [find fst].
  assert (Hin : In x (node_ids (drop_node g u))) by (apply drop_node_ids; auto). unfold node_ids, drop_node in Hin. cbn [g_nodes] in Hin.
  apply in_map_iff in Hin. destruct Hin as [p [Ep Hp]]. apply (find_none _ _ E) in Hp. exfalso. subst x. rewrite Nat.eqb_refl in Hp. discriminate.
Qed.

Lemma rp_kind_sum : node_kind g' nx = Some USum.
Proof. apply node_kind_NoDup; [apply rp_NoDup|]. unfold g', replaced. cbn [g_nodes]. apply in_or_app. right. now left. Qed.

Lemma rp_out_old x : In x (node_ids g) -> Permutation (out_edges g' x) (map (reroute u nx) (out_edges g x)).
Proof.
  intros Hx. rewrite <- (reroute_perm u nx x (g_edges g)); [|intros e He; now apply rp_src_u].
  unfold out_edges, g', replaced. cbn [g_edges]. rewrite !filter_app, (filter_nil _ es); [reflexivity|].
  intros e He. apply rp_es in He. destruct He as [E _]. apply Hlt in Hx. apply Nat.eqb_neq. rewrite E. lia.
Qed.

Lemma rp_out_sum : out_edges g' nx = es.
Proof.
  unfold out_edges, g', replaced. cbn [g_edges]. rewrite !filter_app.
  rewrite (filter_nil _ (filter (keeps u) (g_edges g))), (filter_nil _ (map _ _)), app_nil_r.
  - simpl. apply filter_all. intros e He. apply rp_es in He. apply Nat.eqb_eq. tauto.
  - intros e He. apply in_map_iff in He. destruct He as [e' [<- He']]. apply in_edges_In in He'. destruct He' as [He' _]. apply rp_ends in He'. simpl. apply Nat.eqb_neq. lia.
  - intros e He. apply filter_In in He. destruct He as [He _]. apply rp_ends in He. apply Nat.eqb_neq. lia.
Qed.

Lemma rp_wf : wf g'.
Proof.
  assert (Hux := Hlt u rp_u). constructor.
  - apply rp_NoDup.
  - unfold g', replaced. cbn [g_edges]. rewrite !map_app. apply NoDup_app_intro.
    + apply NoDup_map_filter. apply Hwf.
    + apply NoDup_app_intro.
      * apply (NoDup_map_inv snd). rewrite map_map. cbn [snd]. change (NoDup (map e_dst es)). rewrite Hed. apply seq_NoDup.
      * rewrite map_map. cbn [e_src e_dst].
        assert (Hn := wf_edges _ Hwf). unfold in_edges. clear -Hn. induction (g_edges g) as [|e L IH]; simpl; [constructor|].
        simpl in Hn. inversion Hn as [|? ? Hx Hn']; subst. destruct (Nat.eqb_spec (e_dst e) u); auto. simpl. constructor; auto.
        intros Hin. apply Hx. apply in_map_iff in Hin. destruct Hin as (e' & E & Hin). apply filter_In in Hin. destruct Hin as [Hin Ed].
        apply Nat.eqb_eq in Ed. apply in_map_iff. exists e'. split; auto. congruence.
      * intros x Hx Hx'. apply in_map_iff in Hx, Hx'. destruct Hx as (e & <- & He), Hx' as (e' & E & H). apply rp_es in He.
        apply in_map_iff in H. destruct H as (e2 & <- & H). simpl in E. inversion E. lia.
    + intros x Hx Hx'. apply in_map_iff in Hx. destruct Hx as (e & <- & He). apply filter_In in He. destruct He as [He _]. apply rp_ends in He.
      apply in_app_or in Hx'. destruct Hx' as [Hx'|Hx']; apply in_map_iff in Hx'; destruct Hx' as (e' & E & He').
      * apply rp_es in He'. inversion E. lia.
      * apply in_map_iff in He'. destruct He' as (e2 & <- & _). simpl in E. inversion E. lia.
  - intros e He. apply rp_ids. apply rp_edges in He. destruct He as [[He Hd]|[He|[e0 [He [Hd ->]]]]].
    + left. split; [now apply (wf_src g Hwf)|now apply rp_src_u].
    + apply rp_es in He. destruct He as [-> _]. right. lia.
    + left. simpl. split; [now apply (wf_src g Hwf)|now apply rp_src_u].
  - intros e He. apply rp_ids. apply rp_edges in He. destruct He as [[He Hd]|[He|[e0 [He [Hd ->]]]]].
    + left. split; [now apply (wf_dst g Hwf)|auto].
    + apply rp_es in He. right. lia.
    + right. simpl. lia.
Qed.

Lemma rp_terminal : leaves_terminal g'.
Proof.
  intros e d' He Hk. apply rp_edges in He. destruct He as [[He Hd]|[He|[e0 [He [Hd ->]]]]].
  - rewrite rp_kind_old in Hk; [eapply Hlf; eauto|now apply (wf_src g Hwf)|now apply rp_src_u].
  - apply rp_es in He. destruct He as [E _]. rewrite E, rp_kind_sum in Hk. discriminate.
  - simpl in Hk. rewrite rp_kind_old in Hk; [eapply Hlf; eauto|now apply (wf_src g Hwf)|now apply rp_src_u].
Qed.

Definition moved (x : id) : id := if x =? u then nx else x.

Lemma rp_root : root g = Some r -> root g' = Some (moved r).
Proof.
  intros Hr. destruct (root_spec g r Hr) as [Hin Hnot]. assert (Hux := Hlt u rp_u).
  assert (Hsrc : forall x, In x (node_ids g) -> x <> r -> In x (map e_dst (g_edges g))).
  { intros x Hx Hxr. destruct (in_dec Nat.eq_dec x (map e_dst (g_edges g))); auto. exfalso. apply Hxr. eapply root_unique; eauto. }
  apply root_intro.
  - apply rp_wf.
  - apply rp_ids. unfold moved. destruct (Nat.eqb_spec r u); [right; lia|left; auto].
  - intros H. apply in_map_iff in H. destruct H as (e & E & He). unfold moved in E. apply rp_edges in He.
    destruct He as [[He Hd]|[He|[e0 [He [Hd ->]]]]].
    + destruct (Nat.eqb_spec r u); [apply rp_ends in He; lia|]. apply Hnot. rewrite <- E. now apply in_map.
    + apply rp_es in He. destruct (Nat.eqb_spec r u); [lia|]. apply Hlt in Hin. lia.
    + simpl in E. destruct (Nat.eqb_spec r u) as [Eru|]; [|apply Hlt in Hin; lia]. apply Hnot. rewrite Eru, <- Hd. now apply in_map.
  - intros x Hx Hxr. apply rp_ids in Hx. destruct Hx as [[Hx Hxu]|Hx].
    + assert (H : In x (map e_dst (g_edges g))).
      { apply Hsrc; auto. intros ->. apply Hxr. unfold moved. destruct (Nat.eqb_spec r u); congruence. }
      apply in_map_iff in H. destruct H as (e & <- & He). apply in_map. apply rp_edges. auto.
    + destruct (Nat.eq_dec x nx) as [->|Hn].
      * assert (H : In u (map e_dst (g_edges g))).
        { apply Hsrc; [apply rp_u|]. intros E. apply Hxr. unfold moved. destruct (Nat.eqb_spec r u); congruence. }
        apply in_map_iff in H. destruct H as (e & E & He). apply in_map_iff. exists (mkEdge (e_src e) nx (e_lw e)). split; auto.
        apply rp_edges. right. right. exists e. auto.
      * assert (H : In x (map e_dst es)) by (rewrite Hed; apply in_seq; lia). apply in_map_iff in H. destruct H as (e & <- & He).
        apply in_map. apply rp_edges. auto.
Qed.

Lemma rp_reach x : reach g' (moved r) x -> In r (node_ids g) ->
  (reach g r x /\ x < nx /\ x <> u) \/ (x = nx /\ reach g r u) \/ (S nx <= x).
Proof.
  intros H Hin. induction H as [|v e H IH He Hs].
  - unfold moved. destruct (Nat.eqb_spec r u); [subst; right; left; split; auto; constructor|]. left. split; [constructor|split; auto].
  - apply rp_edges in He. destruct He as [[He Hd]|[He|[e0 [He [Hd ->]]]]].
    + assert (E := rp_ends e He). left. destruct IH as [[IH _]|[[IH _]|IH]]; try lia. split; [|lia]. econstructor; eauto.
    + apply rp_es in He. right. right. lia.
    + simpl in *. assert (E := rp_ends e0 He). right. left. split; auto. destruct IH as [[IH _]|[[IH _]|IH]]; try lia.
      rewrite <- Hd. econstructor; eauto.
Qed.

Lemma rp_graded : In r (node_ids g) -> graded g r -> graded g' (moved r).
Proof.
  intros Hin (lv & H0 & Hlv). exists (fun x => if x <? nx then lv x else if x =? nx then lv u else S (lv u)). split.
  - unfold moved. destruct (Nat.eqb_spec r u) as [->|].
    + rewrite Nat.ltb_irrefl, Nat.eqb_refl. exact H0.
    + apply Hlt in Hin. apply Nat.ltb_lt in Hin. now rewrite Hin.
  - intros e He Hr. apply rp_reach in Hr; auto. apply rp_edges in He. destruct He as [[He Hd]|[He|[e0 [He [Hd ->]]]]].
    + assert (E := rp_ends e He). destruct E as [E1 E2]. apply Nat.ltb_lt in E1 as E1', E2 as E2'. rewrite E1', E2'.
      destruct Hr as [[Hr _]|[[Hr _]|Hr]]; try lia. now apply Hlv.
    + apply rp_es in He. destruct He as [-> He]. rewrite Nat.ltb_irrefl, Nat.eqb_refl.
      destruct (Nat.ltb_spec (e_dst e) nx), (Nat.eqb_spec (e_dst e) nx); lia.
    + cbn [e_src e_dst] in *. assert (E := rp_ends e0 He). destruct E as [E1 E2]. apply Nat.ltb_lt in E1 as E1'. rewrite E1', Nat.ltb_irrefl, Nat.eqb_refl.
      destruct Hr as [[Hr _]|[[Hr _]|Hr]]; try lia. rewrite <- Hd. now apply Hlv.
Qed.

(** ** Unfolding *)
Lemma rp_unfolds_sum : unfolds g' nx (PSum (map (fun pd => (fst pd, PLeaf (snd pd))) l)).
Proof.
  constructor.
  - apply rp_kind_sum.
  - rewrite rp_out_sum. intros E. rewrite E in Hed. destruct l; [auto|discriminate].
  - rewrite rp_out_sum.
    assert (Hin : forall n, In n ns -> node_kind g' (fst n) = Some (snd n)).
    { intros [y k] Hn. apply node_kind_NoDup; [apply rp_NoDup|]. unfold g', replaced. cbn [g_nodes]. apply in_or_app. right. now right. }
    assert (Hsame : map fst ns = map e_dst es) by congruence.
    eapply new_leaves; eauto.
Qed.

Lemma Forall2_map_fun {A B} (R : A -> B -> Prop) la lb C (f : A -> C) (S : C -> B -> Prop) :
  (forall a b, R a b -> S (f a) b) -> Forall2 R la lb -> Forall2 S (map f la) lb.
Proof. intros H. induction 1; simpl; constructor; auto. Qed.

Lemma Forall2_pull {A B} (R : A -> B -> Prop) la lb la' : Forall2 R la lb -> Permutation la la' ->
  exists lb', Permutation lb lb' /\ Forall2 R la' lb'.
Proof.
  intros H Hp. revert lb H. induction Hp as [|a la la' Hp IH|a b la|la la' la'' Hp1 IH1 Hp2 IH2]; intros lb H.
  - inversion H; subst. exists []. auto.
  - inversion H as [|? x ? lb0 Hx H0]; subst. destruct (IH _ H0) as (lb' & P & F). exists (x :: lb'). auto.
  - inversion H as [|? x ? lb0 Hx H0]; subst. inversion H0 as [|? y ? lb1 Hy H1]; subst. exists (y :: x :: lb1). split; [constructor|]. auto.
  - destruct (IH1 _ H) as (l1 & P1 & F1). destruct (IH2 _ F1) as (l2 & P2 & F2). exists l2. split; auto. now rewrite P1.
Qed.

(** The relation between the old and the new tree, given by what it is closed under. *)
Variable Q : pc D -> pc D -> Prop.
Hypothesis Q_leaf : forall d', Q (PLeaf d') (PLeaf d').
Hypothesis Q_here : Q (PLeaf d) (PSum (map (fun pd => (fst pd, PLeaf (snd pd))) l)).
Hypothesis Q_sum : forall ts ts1 ts', Forall2 (fun a b => fst a = fst b /\ Q (snd a) (snd b)) ts ts1 -> Permutation ts1 ts' -> Q (PSum ts) (PSum ts').
Hypothesis Q_prod : forall ts ts1 ts', Forall2 Q ts ts1 -> Permutation ts1 ts' -> Q (PProd ts) (PProd ts').

Lemma rp_unfolds w t : unfolds g w t -> exists t', unfolds g' (moved w) t' /\ Q t t'.
Proof.
  revert w t. refine (unfolds_ind' g _ _ _ _).
  - intros w d' Hk. destruct (Nat.eq_dec w u) as [->|Hwu].
    + assert (d' = d) as -> by congruence. unfold moved. rewrite Nat.eqb_refl. eexists. split; [apply rp_unfolds_sum|auto].
    + unfold moved. rewrite (proj2 (Nat.eqb_neq w u) Hwu). exists (PLeaf d'). split; auto. constructor. rewrite rp_kind_old; auto.
      eapply node_kind_ids; eauto.
  - intros w ts Hk Hn HF. assert (Hwu : w <> u) by (intros ->; congruence). assert (Hin : In w (node_ids g)) by (eapply node_kind_ids; eauto).
    unfold moved. rewrite (proj2 (Nat.eqb_neq w u) Hwu).
    assert (G : exists ts1, Forall2 (fun e wt => e_lw e = Some (fst wt) /\ unfolds g' (e_dst e) (snd wt)) (map (reroute u nx) (out_edges g w)) ts1 /\
      Forall2 (fun a b => fst a = fst b /\ Q (snd a) (snd b)) ts ts1).
    { clear -HF. induction HF as [|e wt L ts HE HF IH]; [exists []; split; constructor|].
      destruct HE as (E & _ & t' & Hu & HQ). destruct IH as (ts1 & I1 & I2). exists ((fst wt, t') :: ts1). simpl in *. split; constructor; auto. unfold reroute. unfold moved in Hu.
      destruct (e_dst e =? u); cbn [e_lw e_dst]; auto. }
    destruct G as (ts1 & G1 & G2). destruct (Forall2_pull _ _ _ _ G1 (Permutation_sym (rp_out_old w Hin))) as (ts' & P & F).
    exists (PSum ts'). split; [|eapply Q_sum; eauto]. constructor.
    + now rewrite rp_kind_old.
    + intros E. rewrite E in F. inversion F; subst. apply Permutation_sym, Permutation_nil in P. subst. inversion G1.
      destruct (out_edges g w); [auto|discriminate].
    + exact F.
  - intros w ts Hk HF. assert (Hwu : w <> u) by (intros ->; congruence). assert (Hin : In w (node_ids g)) by (eapply node_kind_ids; eauto).
    unfold moved. rewrite (proj2 (Nat.eqb_neq w u) Hwu).
    assert (G : exists ts1, Forall2 (fun e t => unfolds g' (e_dst e) t) (map (reroute u nx) (out_edges g w)) ts1 /\ Forall2 Q ts ts1).
    { clear -HF. induction HF as [|e t L ts (_ & (t' & Hu & HQ)) HF (ts1 & I1 & I2)]; [exists []; split; constructor|].
      exists (t' :: ts1). simpl in *. split; constructor; auto. unfold reroute. unfold moved in Hu.
      destruct (e_dst e =? u); cbn [e_lw e_dst]; auto. }
    destruct G as (ts1 & G1 & G2). destruct (Forall2_pull _ _ _ _ G1 (Permutation_sym (rp_out_old w Hin))) as (ts' & P & F).
    exists (PProd ts'). split; [|eapply Q_prod; eauto]. constructor; [now rewrite rp_kind_old|exact F].
Qed.
End Replace.

(** ** What [as_deterministic_sum] does *)
Section Op.
Context {D : Type}.

Lemma add_edges_to (c : id) L : forall (h : graph D), NoDup (map e_src L) ->
  (forall e e', In e L -> In e' (g_edges h) -> ~ (e_src e' = e_src e /\ e_dst e' = c)) ->
  fold_left (fun h e => add_edge h (e_src e) c (e_lw e)) L h =
  mkGraph (g_nodes h) (g_edges h ++ map (fun e => mkEdge (e_src e) c (e_lw e)) L).
Proof.
  induction L as [|e L IH]; intros h Hnd Hf; simpl.
  - rewrite app_nil_r. destruct h; reflexivity.
  - inversion Hnd as [|? ? Hx Hnd']; subst. rewrite add_edge_fresh by (intros e' He'; apply (Hf e e'); [now left|auto]).
    rewrite IH; auto; cbn [g_nodes g_edges].
    + now rewrite <- app_assoc.
    + intros e1 e2 H1 H2. apply in_app_or in H2. destruct H2 as [H2|[<-|[]]]; [apply Hf; simpl; auto|]. simpl. intros [E _].
      apply Hx. rewrite E. now apply in_map.
Qed.

Lemma in_edges_sources (g : graph D) u : wf g -> NoDup (map e_src (in_edges g u)).
Proof.
  intros Hwf. assert (Hn := wf_edges _ Hwf). unfold in_edges. clear -Hn. induction (g_edges g) as [|e L IH]; simpl; [constructor|].
  simpl in Hn. inversion Hn as [|? ? Hx Hn']; subst. destruct (Nat.eqb_spec (e_dst e) u); auto. simpl. constructor; auto.
  intros Hin. apply Hx. apply in_map_iff in Hin. destruct Hin as (e' & E & Hin). apply filter_In in Hin. destruct Hin as [Hin Ed].
  apply Nat.eqb_eq in Ed. apply in_map_iff. exists e'. split; auto. congruence.
Qed.

Lemma replace_op (g : graph D) u d nx l : wf g -> leaves_terminal g -> node_kind g u = Some (ULeaf d) -> (forall x, In x (node_ids g) -> x < nx) ->
  exists ns es,
    (let '(g1, _, _) := fold_left (add_part nx) l (add_node g nx USum, empty_store, S nx) in
     remove_node (connect_incoming_edges_to g1 u nx) u) = Some (replaced g u nx ns es) /\
    map fst ns = seq (S nx) (length l) /\ Forall2 (fun n pd => snd n = ULeaf (snd pd)) ns l /\
    map e_dst es = seq (S nx) (length l) /\ Forall2 (fun e pd => e_src e = nx /\ e_lw e = Some (fst pd)) es l.
Proof.
  intros Hwf Hlf Hk Hlt.
  assert (Hu : In u (node_ids g)) by (eapply node_kind_ids; eauto). assert (Hux := Hlt u Hu).
  assert (Hle : forall e, In e (g_edges g) -> e_dst e < nx) by (intros e He; apply Hlt; now apply (wf_dst g Hwf)).
  assert (Hls : forall e, In e (g_edges g) -> e_src e < nx) by (intros e He; apply Hlt; now apply (wf_src g Hwf)).
  assert (Hlu : forall e, In e (g_edges g) -> e_src e <> u) by (intros e He E; apply (Hlf e d He); rewrite E; exact Hk).
  assert (Hn : has_node g nx = false).
  { destruct (has_node g nx) eqn:E; auto. apply existsb_exists in E. destruct E as [x [Hx E]]. apply Nat.eqb_eq in E. subst. apply Hlt in Hx. lia. }
  unfold add_node. rewrite Hn.
  destruct (add_parts nx l (mkGraph (g_nodes g ++ [@pair id _ nx USum]) (g_edges g)) empty_store (S nx)) as [ns [es [st' [H1 [H2 [H3 [H4 [H5 _]]]]]]]].
  { intros x Hx. rewrite node_ids_app, in_app_iff in Hx. destruct Hx as [Hx|[<-|[]]]; [apply Hlt in Hx; lia|simpl; lia]. }
  { intros e He. apply Hle in He. lia. }
  exists ns, es. rewrite H1. cbn [g_nodes g_edges]. split; [|split; [auto|split; [auto|split; [auto|auto]]]].
  assert (Hes : forall e, In e es -> e_src e = nx /\ nx < e_dst e).
  { intros e He. split; [eapply Forall2_src; eauto|]. apply (in_map e_dst) in He. rewrite H4 in He. apply in_seq in He. lia. }
  set (G := mkGraph ((g_nodes g ++ [@pair id (ukind D) nx USum]) ++ ns) (g_edges g ++ es)).
  assert (Hin : in_edges G u = in_edges g u).
  { unfold in_edges, G. simpl. rewrite filter_app. replace (filter (fun e => e_dst e =? u) es) with (@nil edge); [apply app_nil_r|].
    symmetry. apply filter_nil. intros e He. apply Hes in He. apply Nat.eqb_neq. lia. }
  assert (Hcon : connect_incoming_edges_to G u nx =
    mkGraph ((g_nodes g ++ [@pair id (ukind D) nx USum]) ++ ns) ((g_edges g ++ es) ++ map (fun e => mkEdge (e_src e) nx (e_lw e)) (in_edges g u))).
  { unfold connect_incoming_edges_to. rewrite Hin. apply (add_edges_to nx (in_edges g u) G).
    - now apply in_edges_sources.
    - intros e e' _ He' [_ E]. unfold G in He'. simpl in He'. apply in_app_or in He'. destruct He' as [He'|He']; [apply Hle in He'; lia|apply Hes in He'; lia]. }
  rewrite Hcon. unfold remove_node.
  assert (Hh : forall es', has_node (mkGraph (D := D) ((g_nodes g ++ [@pair id (ukind D) nx USum]) ++ ns) es') u = true).
  { intros es'. unfold has_node. apply existsb_exists. exists u. split; [|apply Nat.eqb_refl]. rewrite node_ids_app, map_app, !in_app_iff. auto. }
  rewrite Hh. f_equal. unfold drop_node, replaced. cbn [g_nodes g_edges]. rewrite !filter_app. cbn [filter fst].
  replace (nx =? u) with false by (symmetry; apply Nat.eqb_neq; lia). cbn [negb].
  rewrite <- !app_assoc. cbn [app]. f_equal; f_equal.
  - f_equal. apply filter_all. intros [y ky] Hin'. apply (in_map fst) in Hin'. rewrite H2 in Hin'. cbn [fst] in *. apply in_seq in Hin'.
    apply negb_true_iff, Nat.eqb_neq. lia.
  - f_equal.
    + apply filter_all. intros e He. apply Hes in He. rewrite andb_true_iff, !negb_true_iff, !Nat.eqb_neq. lia.
    + apply filter_all. intros e He. apply in_map_iff in He. destruct He as [e' [<- He']]. apply in_edges_In in He'. destruct He' as [He' _].
      specialize (Hlu e' He'). rewrite andb_true_iff, !negb_true_iff, !Nat.eqb_neq. simpl. split; [auto|lia].
Qed.
End Op.

(** ** What the new tree means *)
Definition point_parts (d : dist) (p : dict) : list (num * dist) := map (fun kq => (nlog (Fin (snd kq)), at_element d (fst kq))) p.

(** Old and new tree agree on everything that is asked about them. *)
Definition same_meaning (t t' : pc dist) : Prop :=
  (forall x, lik t' x = lik t x) /\
  (forall e, event_ok t e -> event_ok t' e /\ semR (fun d => probR d (e (dvar d))) t' = semR (fun d => probR d (e (dvar d))) t) /\
  (forall v, mentions dist_vars t' v <-> mentions dist_vars t v) /\
  (smooth dist_vars t -> smooth dist_vars t') /\
  (all_leaves dist_ok t -> all_leaves dist_ok t') /\
  (all_sums (Forall lw_ok) t -> all_sums (Forall lw_ok) t').

Local Open Scope R_scope.

Lemma Forall2_in_l {A B} (P : A -> B -> Prop) l l' a : Forall2 P l l' -> In a l -> exists b, In b l' /\ P a b.
Proof. induction 1; simpl; [tauto|]. intros [<-|H']; [eauto|]. destruct (IHForall2 H') as (b & H1 & H2). eauto. Qed.
Lemma Forall2_in_r {A B} (P : A -> B -> Prop) l l' b : Forall2 P l l' -> In b l' -> exists a, In a l /\ P a b.
Proof. induction 1; simpl; [tauto|]. intros [<-|H']; [eauto|]. destruct (IHForall2 H') as (a & H1 & H2). eauto. Qed.

Lemma same_leaf d : same_meaning (PLeaf d) (PLeaf d).
Proof. unfold same_meaning. repeat split; auto; try tauto. Qed.

Lemma Rprod_perm l l' : Permutation l l' -> Rprod l = Rprod l'.
Proof. induction 1; simpl; [reflexivity|now rewrite IHPermutation|ring|congruence]. Qed.

Lemma lik_nonneg t x : nonneg (lik t x).
Proof. apply semN_nonneg. intros d. apply nexp_nonneg. Qed.

Lemma same_sum ts ts1 ts' : Forall2 (fun a b => fst a = fst b /\ same_meaning (snd a) (snd b)) ts ts1 -> Permutation ts1 ts' -> same_meaning (PSum ts) (PSum ts').
Proof.
  intros H P.
  assert (Hin : forall b, In b ts' -> In b ts1) by (intros b Hb; eapply Permutation_in; [symmetry; exact P|auto]).
  assert (Hin' : forall b, In b ts1 -> In b ts') by (intros b Hb; eapply Permutation_in; [exact P|auto]).
  unfold same_meaning. split; [|split; [|split; [|split; [|split]]]].
  - intros x. unfold lik. cbn [semN]. rewrite (nsum_perm _ (map (fun wt => nmul (nexp (fst wt)) (semN (fun d => nexp (ll1 d (x (dvar d)))) (snd wt))) ts1)).
    + f_equal. clear P Hin Hin'. induction H as [|a b ts ts1 [E (H1 & _)] H IH]; auto. cbn [map]. rewrite IH, E. f_equal. f_equal. apply H1.
    + apply Permutation_map. now symmetry.
  - intros e He. unfold event_ok in *. cbn [all_leaves] in *. apply fold_and_Forall in He. split.
    + apply fold_and_Forall. apply Forall_forall. intros b Hb. destruct (Forall2_in_r _ _ _ _ H (Hin b Hb)) as (a & Ha & _ & Hab).
      rewrite Forall_forall in He. apply (proj1 (proj2 Hab)). now apply He.
    + cbn [semR]. rewrite (Rsum_perm _ (map (fun wt => wexp (fst wt) * semR (fun d => probR d (e (dvar d))) (snd wt)) ts1)).
      * f_equal. clear P Hin Hin'. induction H as [|a b ts ts1 [E (_ & H1 & _)] H IH]; auto. inversion He; subst. cbn [map].
        rewrite IH by auto. rewrite E. f_equal. f_equal. now apply H1.
      * apply Permutation_map. now symmetry.
  - intros v. cbn [mentions]. rewrite !fold_or_Exists, !Exists_exists. split.
    + intros (b & Hb & Hv). destruct (Forall2_in_r _ _ _ _ H (Hin b Hb)) as (a & Ha & _ & Hab). exists a. split; auto. now apply Hab.
    + intros (a & Ha & Hv). destruct (Forall2_in_l _ _ _ _ H Ha) as (b & Hb & _ & Hab). exists b. split; auto. now apply Hab.
  - cbn [smooth]. intros [H1 H2]. apply fold_and_Forall in H2. split.
    + intros v Hv. apply fold_and_Forall. apply Forall_forall. intros b Hb.
      destruct (Forall2_in_r _ _ _ _ H (Hin b Hb)) as (a & Ha & _ & Hab). apply Hab.
      assert (Hm : mentions dist_vars (PSum ts) v).
      { cbn [mentions] in *. rewrite fold_or_Exists, Exists_exists in *. destruct Hv as (b' & Hb' & Hv).
        destruct (Forall2_in_r _ _ _ _ H (Hin b' Hb')) as (a' & Ha' & _ & Hab'). exists a'. split; auto. now apply Hab'. }
      specialize (H1 v Hm). apply fold_and_Forall in H1. rewrite Forall_forall in H1. now apply H1.
    + apply fold_and_Forall. apply Forall_forall. intros b Hb. destruct (Forall2_in_r _ _ _ _ H (Hin b Hb)) as (a & Ha & _ & Hab).
      rewrite Forall_forall in H2. apply Hab. now apply H2.
  - cbn [all_leaves]. rewrite !fold_and_Forall, !Forall_forall. intros H1 b Hb.
    destruct (Forall2_in_r _ _ _ _ H (Hin b Hb)) as (a & Ha & _ & Hab). apply Hab. now apply H1.
  - cbn [all_sums]. rewrite !fold_and_Forall. intros [H1 H2]. split.
    + rewrite Forall_forall in *. intros w Hw. apply in_map_iff in Hw. destruct Hw as (b & <- & Hb).
      destruct (Forall2_in_r _ _ _ _ H (Hin b Hb)) as (a & Ha & E & _). rewrite <- E. apply H1. now apply in_map.
    + apply Forall_forall. intros b Hb. destruct (Forall2_in_r _ _ _ _ H (Hin b Hb)) as (a & Ha & _ & Hab).
      rewrite Forall_forall in H2. apply Hab. now apply H2.
Qed.

Lemma same_prod ts ts1 ts' : Forall2 same_meaning ts ts1 -> Permutation ts1 ts' -> same_meaning (PProd ts) (PProd ts').
Proof.
  intros H P.
  assert (Hin : forall b, In b ts' -> In b ts1) by (intros b Hb; eapply Permutation_in; [symmetry; exact P|auto]).
  assert (Hin' : forall b, In b ts1 -> In b ts') by (intros b Hb; eapply Permutation_in; [exact P|auto]).
  unfold same_meaning. split; [|split; [|split; [|split; [|split]]]].
  - intros x. unfold lik. cbn [semN]. rewrite <- (nprod_perm (map (semN (fun d => nexp (ll1 d (x (dvar d))))) ts1)).
    + f_equal. clear P Hin Hin'. induction H as [|a b ts ts1 (H1 & _) H IH]; auto. cbn [map]. rewrite IH. f_equal. apply H1.
    + now apply Permutation_map.
    + apply Forall_map. apply Forall_forall. intros b _. apply lik_nonneg.
  - intros e He. unfold event_ok in *. cbn [all_leaves] in *. apply fold_and_Forall in He. split.
    + apply fold_and_Forall. apply Forall_forall. intros b Hb. destruct (Forall2_in_r _ _ _ _ H (Hin b Hb)) as (a & Ha & Hab).
      rewrite Forall_forall in He. apply (proj1 (proj2 Hab)). now apply He.
    + cbn [semR]. transitivity (Rprod (map (semR (fun d => probR d (e (dvar d)))) ts1)).
      * apply Rprod_perm, Permutation_map. now symmetry.
      * f_equal. clear P Hin Hin'. induction H as [|a b ts ts1 (_ & H1 & _) H IH]; auto. inversion He; subst. cbn [map].
        rewrite IH by auto. f_equal. now apply H1.
  - intros v. cbn [mentions]. rewrite !fold_or_Exists, !Exists_exists. split.
    + intros (b & Hb & Hv). destruct (Forall2_in_r _ _ _ _ H (Hin b Hb)) as (a & Ha & Hab). exists a. split; auto. now apply Hab.
    + intros (a & Ha & Hv). destruct (Forall2_in_l _ _ _ _ H Ha) as (b & Hb & Hab). exists b. split; auto. now apply Hab.
  - cbn [smooth]. rewrite !fold_and_Forall, !Forall_forall. intros H1 b Hb.
    destruct (Forall2_in_r _ _ _ _ H (Hin b Hb)) as (a & Ha & Hab). apply Hab. now apply H1.
  - cbn [all_leaves]. rewrite !fold_and_Forall, !Forall_forall. intros H1 b Hb.
    destruct (Forall2_in_r _ _ _ _ H (Hin b Hb)) as (a & Ha & Hab). apply Hab. now apply H1.
  - cbn [all_sums]. rewrite !fold_and_Forall, !Forall_forall. intros H1 b Hb.
    destruct (Forall2_in_r _ _ _ _ H (Hin b Hb)) as (a & Ha & Hab). apply Hab. now apply H1.
Qed.

(** The leaf itself. *)
Lemma disc_ll v p x : dict_ok p -> nexp (ll1 (DSym v p) x) = Fin (Rsum (map (fun kq => ind (Reqb x (IZR (fst kq))) * snd kq) p)).
Proof.
  intros [Hk Hv]. cbn [ll1].
  enough (G : forall acc, nexp (fold_left (fun acc kv => if Reqb x (IZR (fst kv)) then nlog (Fin (snd kv)) else acc) p acc) =
    if existsb (fun kq => Reqb x (IZR (fst kq))) p then Fin (Rsum (map (fun kq => ind (Reqb x (IZR (fst kq))) * snd kq) p)) else nexp acc).
  { rewrite G. destruct (existsb _ p) eqn:E; auto. simpl. f_equal. symmetry. apply Rsum_zero. intros kq Hin.
    destruct (Reqb x (IZR (fst kq))) eqn:E'; [|unfold ind; lra]. exfalso.
    assert (existsb (fun kq => Reqb x (IZR (fst kq))) p = true) by (apply existsb_exists; eauto). congruence. }
  induction p as [|[k q] p IH]; intros acc; [reflexivity|]. cbn [keys vals map fst snd] in *.
  inversion Hk as [|? ? Hn Hk']; subst. inversion Hv as [|? ? Hq Hv']; subst. cbn [fold_left existsb map fst snd].
  rewrite IH by auto. unfold ind at 2. destruct (Reqb_spec x (IZR k)) as [->|Hx]; cbn [orb].
  - assert (Hz : forall kq, In kq p -> Reqb (IZR k) (IZR (fst kq)) = false).
    { intros kq Hin. destruct (Reqb_spec (IZR k) (IZR (fst kq))) as [E|]; auto. apply eq_IZR in E. exfalso. apply Hn. rewrite E. now apply in_map. }
    replace (existsb (fun kq => Reqb (IZR k) (IZR (fst kq))) p) with false.
    + rewrite nexp_nlog by exact Hq. cbn [Rsum fold_right]. f_equal. fold (Rsum (map (fun kq : Z * R => ind (Reqb (IZR k) (IZR (fst kq))) * snd kq) p)).
      rewrite Rsum_zero; [lra|]. intros kq Hin. rewrite Hz by auto. unfold ind. lra.
    + symmetry. apply not_true_is_false. intros E. apply existsb_exists in E. destruct E as (kq & Hin & E). rewrite Hz in E by auto. discriminate.
  - destruct (existsb _ p); auto. cbn [Rsum fold_right]. f_equal. unfold Rsum. lra.
Qed.

Definition discrete (d : dist) : Prop := exists p, probabilities d = Some p.

Lemma at_element_sum (h : num -> R) d p x : probabilities d = Some p -> dict_ok p ->
  nexp (ll1 d x) = nsum (map (fun kq => nmul (nexp (nlog (Fin (snd kq)))) (nexp (ll1 (at_element d (fst kq)) x))) p).
Proof.
  intros E Hp. assert (Hd : ll1 d x = ll1 (DSym 0%nat p) x) by (destruct d; simpl in E; inversion E; subst; reflexivity).
  rewrite Hd, disc_ll by auto. rewrite (nsum_map_Fin _ (fun kq => ind (Reqb x (IZR (fst kq))) * snd kq)); auto.
  intros [k q] Hin. cbn [fst snd]. destruct Hp as [_ Hv]. rewrite Forall_forall in Hv. assert (0 <= q) by (apply Hv; apply (in_map snd _ _ Hin)).
  rewrite nexp_nlog by assumption.
  assert (Hl : ll1 (at_element d k) x = ll1 (DSym 0%nat [(k, 1)]) x) by (destruct d; simpl in E; inversion E; reflexivity).
  rewrite Hl, disc_ll. 2:{ split; repeat constructor; simpl; auto; lra. } cbn [map fst snd Rsum fold_right nmul]. f_equal. ring.
Qed.

Lemma same_here d p : probabilities d = Some p -> dist_ok d ->
  same_meaning (PLeaf d) (PSum (map (fun pd => (fst pd, PLeaf (snd pd))) (point_parts d p))).
Proof.
  intros E Hok. assert (Hp : dict_ok p) by (destruct d; simpl in E; inversion E; subst; apply Hok).
  assert (Hv : forall k, dvar (at_element d k) = dvar d) by (intros k; destruct d; simpl in E; inversion E; reflexivity).
  assert (Hpv : forall k q, In (k, q) p -> 0 <= q). { intros k q Hin. destruct Hp as [_ Hv']. rewrite Forall_forall in Hv'. apply Hv'. apply (in_map snd _ _ Hin). }
  assert (Hne : p <> []). { intros ->. destruct d; simpl in E; inversion E; subst; simpl in Hok; destruct Hok; lra. }
  unfold same_meaning, point_parts. rewrite map_map. cbn [fst snd]. split; [|split; [|split; [|split; [|split]]]].
  - intros x. unfold lik. cbn [semN]. rewrite map_map. cbn [fst snd semN]. rewrite (at_element_sum (fun _ => 0) d p (x (dvar d)) E Hp).
    f_equal. apply map_ext. intros [k q]. cbn [fst snd]. now rewrite Hv.
  - intros e He. unfold event_ok in *. cbn [all_leaves semR] in *. rewrite !map_map. cbn [fst snd all_leaves semR]. split.
    + apply fold_and_Forall. apply Forall_forall. intros kq _. rewrite Hv. destruct d; simpl in E; inversion E; subst; exact He.
    + transitivity (Rsum (map (fun kq => ind (in_evset (e (dvar d)) (IZR (fst kq))) * snd kq) p)).
      * apply Rsum_ext. intros [k q] Hin. cbn [fst snd]. rewrite (proj2 (wexp_nlog q (Hpv k q Hin))). rewrite Hv.
        destruct d; simpl in E; inversion E; subst; cbn; ring.
      * destruct d; simpl in E; inversion E; subst; reflexivity.
  - intros w. cbn [mentions]. rewrite map_map. cbn [snd mentions]. rewrite fold_or_Exists, Exists_exists. unfold dist_vars. split.
    + intros (kq & _ & H). now rewrite Hv in H.
    + intros H. destruct p as [|kq p]; [tauto|]. exists kq. split; [now left|]. now rewrite Hv.
  - intros _. cbn [smooth mentions]. rewrite !map_map. cbn [snd mentions smooth]. split.
    + intros w Hw. apply fold_and_Forall. rewrite fold_or_Exists, Exists_exists in Hw. destruct Hw as (kq & Hin0 & Hw). apply Forall_forall.
      intros kq' Hin. apply in_map_iff in Hin, Hin0. destruct Hin as (a & <- & _), Hin0 as (b & <- & _). cbn [snd mentions] in *.
      unfold dist_vars in *. now rewrite Hv in *.
    + apply fold_and_Forall. apply Forall_forall. auto.
  - intros _. cbn [all_leaves]. rewrite map_map. cbn [snd all_leaves]. apply fold_and_Forall. apply Forall_forall. intros [k q] _.
    destruct d; simpl in E; inversion E; subst; cbn; (split; [split; repeat constructor; simpl; auto; lra|simpl; lra]).
  - intros _. cbn [all_sums]. rewrite !map_map. cbn [fst snd all_sums]. split.
    + apply Forall_map. apply Forall_forall. intros [k q] Hin. cbn [snd]. apply wexp_nlog. eapply Hpv; eauto.
    + apply fold_and_Forall. apply Forall_forall. auto.
Qed.
