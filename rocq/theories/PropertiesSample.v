(** * PropertiesSample: C17 (every cell is written once, by one selection of children) and C18 (combinations of components) *)
From Coq Require Import List Arith Bool Lia Permutation Reals Lra.
From Verif Require Import Num Graph GraphFacts Spec SpecFacts Circuit EvalFacts VarFacts Interval Copy Dist
  Sample SampleFacts SampleMain SampleTree PropertiesQuery PropertiesProb PropertiesSimplify.
Import ListNotations.
Local Open Scope nat_scope.

(** The blocks that write a cell of the array. *)
Definition writers (bs : list block) (row col : nat) : list block := filter (fun b => covers_cell b row col) bs.

(** A leaf writes (part of) a row. *)
Definition writes_row (bs : list block) (row : nat) (leaf : id) : Prop :=
  exists b, In b bs /\ b_leaf b = leaf /\ b_start b <= row < b_start b + b_amount b.

(** A child of positive weight. *)
Definition weighted {D} (g : graph D) (u c : id) : Prop := exists e, In e (out_edges g u) /\ e_dst e = c /\ e_lw e <> Some NInf.

Lemma wrote_In bs j u : In u (wrote j bs) <-> writes_row bs j u.
Proof.
  unfold wrote, writes_row. rewrite in_map_iff. split.
  - intros (b & <- & H). apply filter_In in H. destruct H as [H1 H2]. exists b. split; [auto|split; auto].
    unfold covers_row in H2. apply andb_true_iff in H2. destruct H2 as [Ha Hb]. apply Nat.leb_le in Ha. apply Nat.ltb_lt in Hb. lia.
  - intros (b & H1 & H2 & H3). exists b. split; auto. apply filter_In. split; auto. unfold covers_row.
    apply andb_true_iff. rewrite Nat.leb_le, Nat.ltb_lt. lia.
Qed.

Section C17.
Context {D : Type} (dvars : D -> list nat).

Lemma possible_respects (g : graph D) draw : possible g draw -> respects (weighted g) g draw.
Proof.
  intros H u k a i e m Hk He Hm Hpos. exists e. split; [eapply nth_error_In; eauto|]. split; auto.
  intros Hw. destruct (H u k a Hk) as (_ & _ & H3 & _). rewrite (H3 i e He Hw) in Hm. injection Hm as <-. lia.
Qed.

Lemma unique_writer (Q : id -> nat -> Prop) (B : list block) v (f : block -> bool) :
  pairwise_disjoint (map Q (map b_leaf B)) -> (exists x, In x (map b_leaf B) /\ Q x v) ->
  (forall b, In b B -> (f b = true <-> Q (b_leaf b) v)) -> exists b, filter f B = [b] /\ In b B.
Proof.
  induction B as [|b B IH]; intros Hpd Hex Hf; [destruct Hex as (x & [] & _)|].
  cbn [map] in Hpd. rewrite pd_cons in Hpd. destruct Hpd as [H1 H2]. simpl. destruct (f b) eqn:E.
  - exists b. split; [|now left]. f_equal. apply (Hf b) in E; [|now left]. 
    assert (Hno : forall b', In b' B -> f b' = false).
    { intros b' Hb'. destruct (f b') eqn:E'; auto. exfalso. apply (Hf b') in E'; [|now right].
      apply (H1 (Q (b_leaf b'))) with (v := v); auto. rewrite map_map. apply in_map_iff. eauto. }
    clear - Hno. induction B as [|b' B IH]; simpl; auto. rewrite (Hno b') by (now left). apply IH. intros. apply Hno. now right.
  - destruct IH as (b' & Hb & Hin); auto.
    + destruct Hex as (x & [<-|Hx] & Hq); [|eauto]. apply (Hf b) in Hq; [congruence|now left].
    + intros b' Hb'. apply Hf. now right.
    + exists b'. split; auto.
Qed.

Lemma filter_filter {A} (p q : A -> bool) l : filter (fun x => p x && q x) l = filter q (filter p l).
Proof. induction l as [|x l IH]; simpl; auto. destruct (p x); simpl; auto. destruct (q x); now rewrite IH. Qed.

(** C17.  Sampling never raises, stays within the array, writes every cell exactly once by a leaf over the cell's
    variable; and for every row there is a choice [ch] of one positive-weight child per sum unit such that the leaves that
    write the row are exactly the leaves visited from the root when following [ch] at sums and everything at products. *)
Theorem C17_sample_cells (g : graph D) (t : pc D) (draw : draws) (n : nat) :
  layered_circuit g t -> smooth dvars t -> decomposable dvars t -> proper dvars t -> possible g draw ->
  exists vars bs, circuit_variables dvars g = Some vars /\ (forall v, In v vars <-> mentions dvars t v) /\
    sample_blocks dvars draw g n = Some bs /\
    (forall b, In b bs -> b_start b + b_amount b <= n /\ forall c, In c (b_columns b) -> c < length vars) /\
    (forall row col v, row < n -> nth_error vars col = Some v ->
       exists b d, writers bs row col = [b] /\ node_kind g (b_leaf b) = Some (ULeaf d) /\ In v (dvars d)) /\
    (forall row, row < n -> exists r ch, root g = Some r /\
       (forall u, visited g r ch u -> node_kind g u = Some USum -> weighted g u (ch u)) /\
       (forall u d, node_kind g u = Some (ULeaf d) -> (visited g r ch u <-> writes_row bs row u)) /\
       NoDup (map b_leaf (filter (fun b => covers_row b row) bs))).
Proof.
  intros (Hwf & Hlt & r & Hr & Hgr & Hu) Hs Hd Hp Hdraw.
  destruct (circuit_variables_spec dvars g r t Hr Hu Hs) as (vars & Hv & Hsort & Hvs).
  assert (Hnv : NoDup vars).
  { clear - Hsort. induction Hsort as [|v l Hs IH HF]; constructor; auto. intros Hin. rewrite Forall_forall in HF.
    specialize (HF v Hin). lia. }
  destruct (sample_correct dvars (weighted g) g r t Hwf Hlt Hr Hgr Hu Hs Hd Hp draw vars n Hdraw (possible_respects g draw Hdraw) Hnv Hvs Hv)
    as (bs & Hbs & Hblocks & Hrows).
  exists vars, bs. split; [auto|]. split; [auto|]. split; [auto|]. split; [|split].
  - intros b Hb. destruct (Hblocks b Hb) as (H1 & d & Hk & Hc). split; auto. intros c Hin. apply Hc in Hin.
    destruct Hin as (v & _ & Hn). apply nth_error_Some. congruence.
  - intros row col v Hrow Hcol. destruct (Hrows row Hrow) as (ch & _ & _ & _ & Hpart & Hcov).
    unfold writers, covers_cell. rewrite filter_filter.
    assert (Hbl : forall b, In b (filter (fun b => covers_row b row) bs) -> columns_ok dvars g vars b).
    { intros b Hb. apply filter_In in Hb. apply (Hblocks b). tauto. }
    destruct (unique_writer (ment dvars g) (filter (fun b => covers_row b row) bs) v (fun b => existsb (Nat.eqb col) (b_columns b))) as (b & Hb & Hin).
    + exact Hpart.
    + apply Hcov. exists t. split; auto. apply Hvs. eapply nth_error_In; eauto.
    + intros b Hb. rewrite existsb_eqb_In. destruct (Hbl b Hb) as (d & Hk & Hc). rewrite Hc, (ment_leaf dvars g _ d Hk).
      split; [|eauto]. intros (w & Hw & Hn). rewrite Hcol in Hn. injection Hn as ->. exact Hw.
    + destruct (Hbl b Hin) as (d & Hk & Hc). exists b, d. split; [exact Hb|]. split; [auto|].
      assert (Hf : In b [b]) by now left. rewrite <- Hb in Hf. apply filter_In in Hf. destruct Hf as [_ Hf].
      rewrite existsb_eqb_In, Hc in Hf. destruct Hf as (w & Hw & Hn). rewrite Hcol in Hn. injection Hn as ->. exact Hw.
  - intros row Hrow. destruct (Hrows row Hrow) as (ch & H1 & H2 & H3 & _). exists r, ch. split; [auto|].
    split; [|split; [|exact H3]].
    + intros u Hvis Hk. apply H1; auto.
    + intros u d Hk. rewrite (H2 u d Hk). apply wrote_In.
Qed.

(** ** C18 *)

(** A product of two mixtures of leaves. *)
Definition two_mixtures (g : graph D) (s1 s2 : id) : Prop :=
  exists r, root g = Some r /\ node_kind g r = Some UProd /\ subcircuits g r = [s1; s2] /\
    node_kind g s1 = Some USum /\ node_kind g s2 = Some USum /\
    (forall c, In c (subcircuits g s1) -> weighted g s1 c /\ exists d, node_kind g c = Some (ULeaf d)) /\
    (forall c, In c (subcircuits g s2) -> weighted g s2 c /\ exists d, node_kind g c = Some (ULeaf d)).

(** In a tree-shaped circuit, four combinations of two leaves over one variable with two leaves over another variable never
    all occur in one sample: every leaf writes one block of consecutive rows. *)
Theorem C18_no_crossing (g : graph D) r (t : pc D) (draw : draws) n bs a a' b b' da da' db db' x y :
  tree_shaped g r -> layered_circuit g t -> smooth dvars t -> decomposable dvars t -> proper dvars t -> possible g draw ->
  sample_blocks dvars draw g n = Some bs ->
  node_kind g a = Some (ULeaf da) -> node_kind g a' = Some (ULeaf da') -> a <> a' -> In x (dvars da) -> In x (dvars da') ->
  node_kind g b = Some (ULeaf db) -> node_kind g b' = Some (ULeaf db') -> b <> b' -> In y (dvars db) -> In y (dvars db') ->
  ~ ((exists j, writes_row bs j a /\ writes_row bs j b) /\ (exists j, writes_row bs j a /\ writes_row bs j b') /\
     (exists j, writes_row bs j a' /\ writes_row bs j b) /\ (exists j, writes_row bs j a' /\ writes_row bs j b')).
Proof.
  intros Htree Hlay Hs Hd Hp Hdraw Hbs Ka Ka' Na Xa Xa' Kb Kb' Nb Yb Yb' (H1 & H2 & H3 & H4).
  pose proof (one_block dvars g r Htree draw Hdraw n bs Hbs) as Hone.
  destruct (C17_sample_cells g t draw n Hlay Hs Hd Hp Hdraw) as (vars & bs' & Hv & Hvs & Hbs' & Hin & Hcells & _).
  rewrite Hbs in Hbs'. injection Hbs' as <-.
  destruct Hlay as (Hwf & Hlt & r' & Hr & Hgr & Hu).
  assert (Hblk : forall b1 b2, In b1 bs -> In b2 bs -> b_leaf b1 = b_leaf b2 -> b1 = b2).
  { clear - Hone. induction bs as [|b0 bs IH]; [intros ? ? []|]. simpl in Hone. inversion Hone as [|? ? Hn Hr]; subst.
    intros b1 b2 [<-|I1] [<-|I2] E; auto.
    - exfalso. apply Hn. rewrite E. now apply in_map.
    - exfalso. apply Hn. rewrite <- E. now apply in_map. }
  (* two leaves over the same variable never write the same row *)
  assert (Hdis : forall p p' dp dp' v, node_kind g p = Some (ULeaf dp) -> node_kind g p' = Some (ULeaf dp') -> p <> p' ->
    In v (dvars dp) -> In v (dvars dp') -> forall j, ~ (writes_row bs j p /\ writes_row bs j p')).
  { intros p p' dp dp' v Kp Kp' Np Vp Vp' j [W1 W2].
    destruct (circuit_variables_spec dvars g r' t Hr Hu Hs) as (vars' & Hv' & Hsort & _). rewrite Hv in Hv'. injection Hv' as <-.
    assert (Hnv : NoDup vars).
    { clear - Hsort. induction Hsort as [|w l Hs IH HF]; constructor; auto. intros Hin. rewrite Forall_forall in HF.
      specialize (HF w Hin). lia. }
    destruct (sample_correct dvars (weighted g) g r' t Hwf Hlt Hr Hgr Hu Hs Hd Hp draw vars n Hdraw (possible_respects g draw Hdraw) Hnv Hvs Hv)
      as (bs' & Hbs' & Hblocks & Hrows). rewrite Hbs in Hbs'. injection Hbs' as <-.
    assert (Hj : j < n) by (destruct W1 as (b1 & Hb1 & _ & Hr1); destruct (Hblocks b1 Hb1); lia).
    destruct (Hrows j Hj) as (_ & _ & _ & _ & Hpart & _).
    apply wrote_In in W1, W2. apply in_split in W1. destruct W1 as (l1 & l2 & E). rewrite E in *.
    rewrite map_app, pd_app in Hpart. cbn [map] in Hpart. destruct Hpart as (_ & P2 & P3). rewrite pd_cons in P2. destruct P2 as [P2 _].
    apply in_app_iff in W2. destruct W2 as [W2|[W2|W2]]; [| congruence |].
    - apply (P3 (ment dvars g p') (ment dvars g p)) with (v := v); [now apply in_map|now left|].
      split; [now apply (ment_leaf dvars g p' dp' Kp')|now apply (ment_leaf dvars g p dp Kp)].
    - apply (P2 (ment dvars g p')) with (v := v); [now apply in_map|].
      split; [now apply (ment_leaf dvars g p dp Kp)|now apply (ment_leaf dvars g p' dp' Kp')]. }
  pose proof (Hdis a a' da da' x Ka Ka' Na Xa Xa') as DA. pose proof (Hdis b b' db db' y Kb Kb' Nb Yb Yb') as DB.
  destruct H1 as (j1 & A1 & B1), H2 as (j2 & A2 & B2), H3 as (j3 & A3 & B3), H4 as (j4 & A4 & B4).
  destruct A1 as (ba & Ia & La & Ra), A2 as (ba2 & Ia2 & La2 & Ra2), A3 as (ba' & Ia' & La' & Ra'), A4 as (ba4 & Ia4 & La4 & Ra4).
  destruct B1 as (bb & Ib & Lb & Rb), B3 as (bb3 & Ib3 & Lb3 & Rb3), B2 as (bb' & Ib' & Lb' & Rb'), B4 as (bb4 & Ib4 & Lb4 & Rb4).
  assert (ba2 = ba) by (apply Hblk; congruence). assert (ba4 = ba') by (apply Hblk; congruence).
  assert (bb3 = bb) by (apply Hblk; congruence). assert (bb4 = bb') by (apply Hblk; congruence). subst ba2 ba4 bb3 bb4.
  assert (DA' : forall j, ~ (b_start ba <= j < b_start ba + b_amount ba /\ b_start ba' <= j < b_start ba' + b_amount ba')).
  { intros j [E1 E2]. apply (DA j). split; [exists ba|exists ba']; auto. }
  assert (DB' : forall j, ~ (b_start bb <= j < b_start bb + b_amount bb /\ b_start bb' <= j < b_start bb' + b_amount bb')).
  { intros j [E1 E2]. apply (DB j). split; [exists bb|exists bb']; auto. }
  pose proof (DA' (max (b_start ba) (b_start ba'))). pose proof (DB' (max (b_start bb) (b_start bb'))). lia.
Qed.

(** The outcome in which every sum unit gives all rows to the child [ch]. *)
Definition all_to (g : graph D) (ch : id -> id) : draws :=
  fun u _ a => (map (fun c => if c =? ch u then a else 0) (subcircuits g u), seq 0 (length (out_edges g u))).

Lemma all_to_possible (g : graph D) ch : wf g ->
  (forall u, node_kind g u = Some USum -> weighted g u (ch u)) -> possible g (all_to g ch).
Proof.
  intros Hwf Hch u k a Hk. unfold all_to, possible_draw. cbn [fst snd]. unfold subcircuits. rewrite !map_length.
  split; [auto|]. split; [|split; [|apply Permutation_refl]].
  - assert (Hn : NoDup (subcircuits g u)) by now apply NoDup_subcircuits.
    assert (Hin : In (ch u) (subcircuits g u)).
    { destruct (Hch u Hk) as (e & He & <- & _). unfold subcircuits. now apply in_map. }
    fold (subcircuits g u). clear - Hn Hin. induction (subcircuits g u) as [|c cs IH]; [destruct Hin|].
    inversion Hn as [|? ? Hc Hcs]; subst. cbn [map]. simpl. destruct (c =? ch u) eqn:E.
    + apply Nat.eqb_eq in E. subst c.
      assert (Hz : list_sum (map (fun c : id => if c =? ch u then a else 0) cs) = 0).
      { clear - Hc. induction cs as [|c cs IH]; simpl; auto. destruct (c =? ch u) eqn:E.
        - apply Nat.eqb_eq in E. exfalso. apply Hc. now left.
        - apply IH. intros H. apply Hc. now right. }
      change (a + list_sum (map (fun c : id => if c =? ch u then a else 0) cs) = a). rewrite Hz. lia.
    + apply IH; auto. destruct Hin as [->|Hin]; auto. rewrite Nat.eqb_refl in E. discriminate.
  - intros i e He Hw. rewrite !nth_error_map, He. simpl. destruct (e_dst e =? ch u) eqn:E; auto. exfalso.
    apply Nat.eqb_eq in E. destruct (Hch u Hk) as (e' & He' & Hd' & Hw'). apply Hw'.
    assert (e' = e); [|subst; auto].
    pose proof (wf_edges g Hwf) as Hn. pose proof (nth_error_In _ _ He) as Hi. apply out_edges_In in Hi, He'.
    destruct Hi as [I1 S1], He' as [I2 S2].
    assert (E2 : (e_src e', e_dst e') = (e_src e, e_dst e)) by congruence. clear - Hn I1 I2 E2.
    induction (g_edges g) as [|e0 l IH]; [destruct I1|]. simpl in Hn. inversion Hn as [|? ? Hx Hy]; subst.
    destruct I1 as [<-|I1], I2 as [<-|I2]; auto.
    + exfalso. apply Hx. rewrite <- E2. apply in_map_iff. eauto.
    + exfalso. apply Hx. rewrite E2. apply in_map_iff. eauto.
Qed.

(** The part of C18 that holds: for every choice of one positive-weight child per sum unit there is an outcome of the
    random draws whose rows all come from that choice; so every single combination can occur.
    Missing: several combinations in one sample as independent rows would give them ([C18_combinations_refuted]). *)
Theorem C18_combinations_partial (g : graph D) r (t : pc D) (ch : id -> id) n :
  layered_circuit g t -> root g = Some r -> smooth dvars t -> decomposable dvars t -> proper dvars t ->
  (forall u, node_kind g u = Some USum -> weighted g u (ch u)) ->
  exists draw bs, possible g draw /\ sample_blocks dvars draw g n = Some bs /\
    forall row, row < n -> forall u d, node_kind g u = Some (ULeaf d) -> (writes_row bs row u <-> visited g r ch u).
Proof.
  intros (Hwf & Hlt & r' & Hr & Hgr & Hu) Hr' Hs Hd Hp Hch. rewrite Hr in Hr'. injection Hr' as ->.
  assert (Hdraw : possible g (all_to g ch)) by now apply all_to_possible.
  assert (Hresp : respects (fun u c => c = ch u) g (all_to g ch)).
  { intros u k a i e m Hk He Hm Hpos. unfold all_to in Hm. cbn [fst] in Hm. unfold subcircuits in Hm.
    rewrite !nth_error_map, He in Hm. simpl in Hm. destruct (e_dst e =? ch u) eqn:E; [now apply Nat.eqb_eq|].
    injection Hm as <-. lia. }
  destruct (circuit_variables_spec dvars g r t Hr Hu Hs) as (vars & Hv & Hsort & Hvs).
  assert (Hnv : NoDup vars).
  { clear - Hsort. induction Hsort as [|v l Hs IH HF]; constructor; auto. intros Hin. rewrite Forall_forall in HF.
    specialize (HF v Hin). lia. }
  destruct (sample_correct dvars _ g r t Hwf Hlt Hr Hgr Hu Hs Hd Hp (all_to g ch) vars n Hdraw Hresp Hnv Hvs Hv)
    as (bs & Hbs & _ & Hrows).
  exists (all_to g ch), bs. split; [auto|]. split; [auto|]. intros row Hrow u d Hk.
  destruct (Hrows row Hrow) as (ch' & H1 & H2 & _). rewrite <- wrote_In, <- (H2 u d Hk).
  assert (Hsame : forall x, visited g r ch' x -> visited g r ch x).
  { induction 1 as [|x Hx IH Kx|x c Hx IH Kx Hc]; [constructor| |eapply vis_prod; eauto].
    destruct (H1 x Hx Kx) as [_ ->]. now apply vis_sum. }
  assert (Hsame' : forall x, visited g r ch x -> visited g r ch' x).
  { induction 1 as [|x Hx IH Kx|x c Hx IH Kx Hc]; [constructor| |eapply vis_prod; eauto].
    destruct (H1 x IH Kx) as [_ E]. rewrite <- E. now apply vis_sum. }
  split; auto.
Qed.
End C17.

(** C18, as stated: some sample of a product of two mixtures contains every combination of components. *)
Definition C18_full : Prop := forall (g : graph dist) (t : pc dist) s1 s2,
  layered_circuit g t -> smooth dist_vars t -> decomposable dist_vars t -> normalised t -> two_mixtures g s1 s2 ->
  exists n draw bs, possible g draw /\ sample_blocks dist_vars draw g n = Some bs /\
    forall a b, In a (subcircuits g s1) -> In b (subcircuits g s2) ->
      exists j, writes_row bs j a /\ writes_row bs j b.

(** Two mixtures of two uniform distributions each. *)
Definition grid_graph : graph dist :=
  mkGraph [(0, UProd); (1, USum); (2, USum);
           (3, ULeaf (DUnif 0 (iclosed_open 0%R 1%R))); (4, ULeaf (DUnif 0 (iclosed_open 2%R 3%R)));
           (5, ULeaf (DUnif 1 (iclosed_open 0%R 1%R))); (6, ULeaf (DUnif 1 (iclosed_open 2%R 3%R)))]
    [mkEdge 0 1 None; mkEdge 0 2 None;
     mkEdge 1 3 (Some (Fin (ln (1/2)))); mkEdge 1 4 (Some (Fin (ln (1/2))));
     mkEdge 2 5 (Some (Fin (ln (1/2)))); mkEdge 2 6 (Some (Fin (ln (1/2))))].
Definition grid_tree : pc dist :=
  PProd [PSum [(Fin (ln (1/2)), PLeaf (DUnif 0 (iclosed_open 0%R 1%R))); (Fin (ln (1/2)), PLeaf (DUnif 0 (iclosed_open 2%R 3%R)))];
         PSum [(Fin (ln (1/2)), PLeaf (DUnif 1 (iclosed_open 0%R 1%R))); (Fin (ln (1/2)), PLeaf (DUnif 1 (iclosed_open 2%R 3%R)))]].

Example grid_ok : layered_circuit grid_graph grid_tree /\ tree_shaped grid_graph 0 /\ smooth dist_vars grid_tree /\
  decomposable dist_vars grid_tree /\ proper dist_vars grid_tree /\ normalised grid_tree /\ two_mixtures grid_graph 1 2.
Proof.
  assert (Hwf : wf grid_graph) by concrete_wf.
  split; [|split; [|split; [|split; [|split; [|split]]]]].
  - split; [auto|]. split.
    + intros e d H. repeat destruct H as [<-|H]; cbn; try discriminate. destruct H.
    + exists 0. split; [reflexivity|]. split.
      * exists (fun u => if u =? 0 then 0 else if u <=? 2 then 1 else 2). split; [reflexivity|].
        intros e H _. repeat destruct H as [<-|H]; cbn; try reflexivity. destruct H.
      * unfold grid_tree. unf.
  - split; [auto|]. split; [|split; [|split; [|split]]].
    + exists (fun u => 7 - u). intros e H. repeat destruct H as [<-|H]; cbn; try lia. destruct H.
    + cbn. tauto.
    + cbn. repeat constructor; cbn; intuition lia.
    + intros u H Hne. cbn in *. intuition.
    + cbn. intuition lia.
  - cbn. repeat split; auto; intuition.
  - cbn. repeat split; auto; intuition; lia.
  - cbn. repeat split; auto; discriminate.
  - assert (Hc : convex [Fin (ln (1/2)); Fin (ln (1/2))]).
    { split; [repeat constructor|]. cbn. rewrite !exp_ln by lra. lra. }
    unfold normalised. cbn [all_sums grid_tree map fst snd fold_right]. tauto.
  - exists 0. split; [reflexivity|]. split; [reflexivity|]. split; [reflexivity|]. split; [reflexivity|]. split; [reflexivity|]. split.
    + intros c [<-|[<-|[]]]; (split; [|eexists; reflexivity]);
        [exists (mkEdge 1 3 (Some (Fin (ln (1/2))))) | exists (mkEdge 1 4 (Some (Fin (ln (1/2)))))];
        (split; [cbn; tauto|split; [reflexivity|discriminate]]).
    + intros c [<-|[<-|[]]]; (split; [|eexists; reflexivity]);
        [exists (mkEdge 2 5 (Some (Fin (ln (1/2))))) | exists (mkEdge 2 6 (Some (Fin (ln (1/2)))))];
        (split; [cbn; tauto|split; [reflexivity|discriminate]]).
Qed.

Theorem C18_combinations_refuted : ~ C18_full.
Proof.
  intros H. destruct grid_ok as (Hl & Ht & Hs & Hd & Hp & Hn & H2).
  destruct (H _ _ _ _ Hl Hs Hd Hn H2) as (n & draw & bs & Hdraw & Hbs & Hall).
  apply (C18_no_crossing dist_vars grid_graph 0 grid_tree draw n bs 3 4 5 6
    (DUnif 0 (iclosed_open 0%R 1%R)) (DUnif 0 (iclosed_open 2%R 3%R)) (DUnif 1 (iclosed_open 0%R 1%R)) (DUnif 1 (iclosed_open 2%R 3%R)) 0 1);
    auto; try reflexivity; try lia; try (cbn; tauto).
  repeat split; apply Hall; cbn; tauto.
Qed.

(** ** Concrete cases *)

(** The grid with concrete draws: three of five rows to the first component of the first mixture, one to the first of the second. *)
Definition grid_draws : draws := fun u _ a => if u =? 1 then ([a - 2; min a 2], [0; 1]) else ([a - (a - 1); a - 1], [1; 0]).

Example grid_possible : possible grid_graph grid_draws.
Proof.
  intros u k a Hk. unfold possible_draw, grid_draws.
  assert (Hu : u = 1 \/ u = 2).
  { apply node_kind_In in Hk. cbn in Hk. repeat (destruct Hk as [Hk|Hk]; [injection Hk; intros; try discriminate; auto|]); destruct Hk. }
  destruct Hu as [-> | ->]; cbn [Nat.eqb fst snd].
  - split; [reflexivity|]. split; [cbn; lia|]. split; [|apply Permutation_refl].
    intros [|[|[|]]] e He Hw; cbn in He; try discriminate; injection He as <-; discriminate.
  - split; [reflexivity|]. split; [unfold list_sum, fold_right; lia|]. split; [|apply perm_swap].
    intros [|[|[|]]] e He Hw; cbn in He; try discriminate; injection He as <-; discriminate.
Qed.

Example grid_sample : sample_blocks dist_vars grid_draws grid_graph 5 =
  Some [mkBlock 3 0 3 [0]; mkBlock 4 3 2 [0]; mkBlock 5 4 1 [1]; mkBlock 6 0 4 [1]].
Proof. vm_compute. reflexivity. Qed.

Example grid_cells : exists vars bs, circuit_variables dist_vars grid_graph = Some vars /\
  sample_blocks dist_vars grid_draws grid_graph 5 = Some bs /\ forall row col v, row < 5 -> nth_error vars col = Some v ->
    exists b d, writers bs row col = [b] /\ node_kind grid_graph (b_leaf b) = Some (ULeaf d) /\ In v (dist_vars d).
Proof.
  destruct grid_ok as (Hl & Ht & Hs & Hd & Hp & Hn & H2).
  destruct (C17_sample_cells dist_vars grid_graph grid_tree grid_draws 5 Hl Hs Hd Hp grid_possible) as (vars & bs & H & _ & H' & _ & H'' & _).
  exists vars, bs. auto.
Qed.

Print Assumptions C17_sample_cells.
Print Assumptions C18_no_crossing.
Print Assumptions C18_combinations_refuted.
Print Assumptions C18_combinations_partial.
