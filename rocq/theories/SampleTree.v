(** * SampleTree: in a tree every unit gets one request, so every leaf writes one block of consecutive rows *)
From Coq Require Import List Arith Bool Lia Permutation.
From Verif Require Import Num Graph GraphFacts Spec SpecFacts Circuit EvalFacts VarFacts Copy Sample SampleFacts.
Import ListNotations.

Section Tree.
Context {D : Type}.
Variable dvars : D -> list nat.
Implicit Types g : graph D.

Lemma length_push st c q x : length (push st c q x) = length (st x) + count_occ ideq [c] x.
Proof.
  unfold push. simpl. destruct (ideq c x) as [->|Hn].
  - rewrite Nat.eqb_refl, app_length. reflexivity.
  - destruct (x =? c) eqn:E; [apply Nat.eqb_eq in E; congruence|lia].
Qed.

Lemma length_push_all l : forall st x, length (push_all st l x) = length (st x) + count_occ ideq (map fst l) x.
Proof.
  unfold push_all. induction l as [|[c q] l IH]; simpl; intros; [lia|]. rewrite IH, length_push. simpl.
  destruct (ideq c x); lia.
Qed.

Lemma map_fst_consecutive l : forall s, map fst (consecutive s l) = map fst l.
Proof. induction l as [|[c n] l IH]; simpl; intros; auto. now rewrite IH. Qed.

Lemma nth_error_seq_map {A} (d : A) (cs : list A) : map (fun i => nth i cs d) (seq 0 (length cs)) = cs.
Proof. induction cs as [|c cs IH]; simpl; auto. f_equal. rewrite <- seq_shift, map_map. exact IH. Qed.

Lemma sum_request_once g u dr q : possible_draw g u (snd q) dr ->
  exists l, sum_request (subcircuits g u) dr q = Some l /\ Permutation (map fst l) (subcircuits g u).
Proof.
  intros (H1 & H2 & _ & H4). unfold sum_request.
  assert (Hsub : length (subcircuits g u) = length (out_edges g u)) by (unfold subcircuits; now rewrite map_length).
  assert (Hlt : forall i, In i (snd dr) -> i < length (subcircuits g u)).
  { intros i Hi. eapply Permutation_in in Hi; [|exact H4]. apply in_seq in Hi. lia. }
  destruct (mapM_nth (subcircuits g u) (fst dr) (snd dr)) as (l & Hl & _ & _); [lia|auto|].
  rewrite Hl. exists (consecutive (fst q) l). split; auto. rewrite map_fst_consecutive.
  assert (Hf : map fst l = map (fun i => nth i (subcircuits g u) u) (snd dr)).
  { clear H4. revert l Hl. induction (snd dr) as [|i order IH]; intros l Hl.
    - injection Hl as <-. reflexivity.
    - unfold mapM in Hl. destruct (nth_error (subcircuits g u) i) as [c|] eqn:Ec; [|discriminate].
      destruct (nth_error (fst dr) i) as [m|]; [|discriminate].
      match type of Hl with match ?x with _ => _ end = _ => destruct x as [l'|] eqn:El; [|discriminate] end.
      injection Hl as <-. simpl. f_equal; [symmetry; now apply nth_error_nth|]. apply IH; auto. intros; apply Hlt; now right. }
  rewrite Hf. rewrite (Permutation_map (fun i => nth i (subcircuits g u) u) H4), <- Hsub.
  now rewrite nth_error_seq_map.
Qed.

Lemma count_le_NoDup (l : list id) x : NoDup l -> count_occ ideq l x <= 1.
Proof. intros H. now apply (NoDup_count_occ ideq). Qed.

Variable g : graph D.
Variable r : id.
Hypothesis Htree : tree_shaped g r.
Variable draw : draws.
Hypothesis Hdraw : possible g draw.

Lemma tree_NoDup_sub u : NoDup (subcircuits g u).
Proof.
  destruct Htree as (_ & _ & _ & H & _). unfold subcircuits, out_edges. induction (g_edges g) as [|e l IH]; simpl; [constructor|].
  simpl in H. inversion H; subst. destruct (e_src e =? u); simpl; auto. constructor; auto.
  intros Hin. apply H2. apply in_map_iff in Hin. destruct Hin as (e' & He & Hin). apply filter_In in Hin.
  apply in_map_iff. exists e'. tauto.
Qed.

Lemma tree_parent u u' c : In c (subcircuits g u) -> In c (subcircuits g u') -> u = u'.
Proof.
  intros H1 H2. apply subcircuits_In in H1, H2. destruct H1 as (e & He & <- & Hc). destruct H2 as (e' & He' & <- & Hc').
  f_equal. apply (tree_in_edges g r Htree c); apply in_edges_In; auto.
Qed.

Record once (suf : list id) (st : requests) (bs : list block) : Prop := {
  once_le : forall x, length (st x) <= 1;
  once_new : forall u c, In u suf -> In c (subcircuits g u) -> st c = [];
  once_bs : NoDup (map b_leaf bs);
  once_suf : forall b, In b bs -> ~ In (b_leaf b) suf
}.

Lemma once_step vars u suf st bs x : NoDup (u :: suf) -> once (u :: suf) st bs ->
  unit_sample dvars draw vars g (st, bs) u = Some x -> once suf (fst x) (snd x).
Proof.
  intros Hn [H1 H2 H3 H4] Hx. inversion Hn as [|? ? Hus Hns]; subst.
  assert (Hold : forall b, In b bs -> ~ In (b_leaf b) suf) by (intros b Hb Hin; apply (H4 b Hb); now right).
  assert (Hinner : forall st', (forall x, length (st' x) <= length (st x) + count_occ ideq (subcircuits g u) x) -> once suf st' bs).
  { intros st' Hst. split; auto.
    - intros y. specialize (Hst y). specialize (H1 y). pose proof (count_le_NoDup _ y (tree_NoDup_sub u)) as Hc.
      destruct (in_dec ideq y (subcircuits g u)) as [Hy|Hy].
      + rewrite (H2 u y) in * by (auto; now left). simpl in *. lia.
      + apply (count_occ_not_In ideq) in Hy. lia.
    - intros u' c Hu' Hc. specialize (Hst c). rewrite (H2 u' c) in Hst by (auto; now right).
      assert (Hnc : ~ In c (subcircuits g u)).
      { intros Hc'. assert (u = u') by (eapply tree_parent; eauto). subst. contradiction. }
      apply (count_occ_not_In ideq) in Hnc. rewrite Hnc in Hst. simpl in Hst. destruct (st' c); [auto|simpl in Hst; lia]. }
  unfold unit_sample in Hx. cbn [fst snd] in Hx. destruct (node_kind g u) as [[d| |]|] eqn:Hk; [| | |discriminate].
  - destruct (leaf_sample dvars vars d u st) as [bl|] eqn:Hl; [|discriminate]. injection Hx as <-. simpl.
    unfold leaf_sample in Hl. destruct (mapM _ _) as [cols|]; [|discriminate]. injection Hl as <-.
    specialize (H1 u) as Hu. split; auto.
    + intros u' c Hu' Hc. apply (H2 u' c); auto. now right.
    + rewrite map_app, map_map. simpl. destruct (st u) as [|q [|]]; simpl in *; [now rewrite app_nil_r| |lia].
      apply NoDup_Add with (a := u) (l := map b_leaf bs); [|split; auto].
      * rewrite <- (app_nil_r (map b_leaf bs)) at 1. apply Add_app.
      * intros Hin. apply in_map_iff in Hin. destruct Hin as (b & Hb & Hin). apply (H4 b Hin). left. auto.
    + intros b Hb. apply in_app_iff in Hb. destruct Hb as [Hb|Hb]; auto. apply in_map_iff in Hb.
      destruct Hb as (q & <- & _). exact Hus.
  - destruct (sum_sample draw g u st) as [st'|] eqn:Hs; [|discriminate]. injection Hx as <-. simpl. apply Hinner.
    unfold sum_sample in Hs. destruct (lws g u); [|discriminate]. specialize (H1 u).
    destruct (st u) as [|q [|]] eqn:Eu; simpl in H1; [| |lia].
    + injection Hs as <-. intros x. lia.
    + unfold numbered in Hs. simpl in Hs.
      destruct (sum_request_once g u (draw u 0 (snd q)) q) as (lq & Hl & HP); [now apply Hdraw|].
      rewrite Hl in Hs. injection Hs as <-. intros x. rewrite length_push_all.
      rewrite (proj1 (Permutation_count_occ ideq _ _) HP x). lia.
  - injection Hx as <-. simpl. apply Hinner. unfold prod_sample. specialize (H1 u).
    destruct (st u) as [|q [|]] eqn:Eu; simpl in H1; [| |lia].
    + intros x. simpl. lia.
    + intros x. simpl. clear. revert st. induction (subcircuits g u) as [|c cs IH]; intros st; simpl; [lia|].
      specialize (IH (push st c q)). rewrite length_push in IH. simpl in IH. destruct (ideq c x); lia.
Qed.

Theorem one_block n bs : sample_blocks dvars draw g n = Some bs -> NoDup (map b_leaf bs).
Proof.
  unfold sample_blocks. destruct (circuit_variables dvars g) as [vs|]; [|discriminate].
  rewrite (tree_root g r Htree). destruct Htree as (Hwf & _ & Hin & _ & _ & Hnp).
  destruct (bottom_up_spec g r Hwf (tree_root g r Htree)) as (ls & Hls & _ & ->).
  intros H. destruct (foldM _ (concat ls) _) as [[st' bs']|] eqn:Hf; [|discriminate]. injection H as <-.
  assert (Haux : forall suf x x', NoDup suf -> once suf (fst x) (snd x) ->
    foldM (unit_sample dvars draw vs g) suf x = Some x' -> once [] (fst x') (snd x')).
  { clear - Htree Hdraw. induction suf as [|u suf IH]; simpl; intros x x' Hn Ho Hf.
    - injection Hf as <-. auto.
    - destruct (unit_sample dvars draw vs g x u) as [x1|] eqn:E; [|discriminate]. inversion Hn; subst.
      eapply IH; eauto. destruct x as [st bs]. eapply once_step; eauto. }
  apply Haux in Hf; [|eapply layers_from_NoDup; eauto|].
  - apply (once_bs _ _ _ Hf).
  - split; simpl.
    + intros x. rewrite length_push. simpl. destruct (ideq r x); simpl; lia.
    + intros u c _ Hc. unfold push. destruct (c =? r) eqn:E; auto. apply Nat.eqb_eq in E. subst.
      exfalso. apply Hnp. apply subcircuits_In in Hc. destruct Hc as (e & He & _ & <-). now apply in_map.
    + constructor.
    + intros b [].
Qed.
End Tree.
