(** * SampleMain: every row comes from one selection of children *)
From Coq Require Import List Arith Bool Lia Permutation Sorted.
From Verif Require Import Num Graph GraphFacts Spec SpecFacts Circuit EvalFacts VarFacts TreeLocal Copy Sample SampleFacts.
Import ListNotations.

Section Main.
Context {D : Type}.
Variable dvars : D -> list nat.

(** No childless products and no leaves without variables. *)
Fixpoint proper (t : pc D) : Prop :=
  match t with
  | PLeaf d => dvars d <> []
  | PSum l => fold_right and True (map (fun wt => proper (snd wt)) l)
  | PProd l => l <> [] /\ fold_right and True (map proper l)
  end.

(** The units that a choice [ch] of one child per sum unit visits. *)
Inductive visited (g : graph D) (r : id) (ch : id -> id) : id -> Prop :=
| vis_root : visited g r ch r
| vis_sum : forall u, visited g r ch u -> node_kind g u = Some USum -> visited g r ch (ch u)
| vis_prod : forall u c, visited g r ch u -> node_kind g u = Some UProd -> In c (subcircuits g u) -> visited g r ch c.

Variable P : id -> id -> Prop.
Variable g : graph D.
Variable r : id.
Variable t : pc D.
Hypothesis Hwf : wf g.
Hypothesis Hlt : leaves_terminal g.
Hypothesis Hroot : root g = Some r.
Hypothesis Hgraded : graded g r.
Hypothesis Hunf : unfolds g r t.
Hypothesis Hsm : smooth dvars t.
Hypothesis Hdec : decomposable dvars t.
Hypothesis Hprop : proper t.

Definition ment (x : id) (v : nat) : Prop := exists tx, unfolds g x tx /\ mentions dvars tx v.
Definition good (tx : pc D) : Prop := smooth dvars tx /\ decomposable dvars tx /\ proper tx.

Lemma good_hereditary : hereditary good.
Proof.
  split.
  - intros l ((H1 & H2) & H3 & H4). cbn [decomposable proper] in *. rewrite fold_and_Forall in H2, H3, H4.
    rewrite Forall_forall in *. intros wt Hw. unfold good. auto.
  - intros l (H1 & (H2 & H3) & (_ & H4)). cbn [smooth] in *. rewrite fold_and_Forall in H1, H3, H4.
    rewrite Forall_forall in *. intros wt Hw. unfold good. auto.
Qed.

Lemma reach_good x : reach g r x -> exists tx, unfolds g x tx /\ good tx.
Proof. intros H. eapply reach_hereditary; eauto; [apply good_hereditary|]. repeat split; auto. Qed.

Lemma good_mentions tx x : unfolds g x tx -> good tx -> exists v, mentions dvars tx v.
Proof.
  revert x tx. refine (unfolds_ind' g _ _ _ _); [intros u d Hk|intros u ts Hk Hne HF|intros u ts Hk HF]; intros Hg.
  - destruct Hg as (_ & _ & Hp). simpl in Hp. simpl. destruct (dvars d) as [|v l]; [congruence|]. exists v. now left.
  - pose proof (proj1 good_hereditary _ Hg) as Hc. destruct HF as [|e [w t'] es ts [H1 [H2 H3]] HF]; [congruence|].
    inversion Hc; subst. destruct (H3 ltac:(assumption)) as [v Hv]. exists v. simpl. left. exact Hv.
  - pose proof (proj2 good_hereditary _ Hg) as Hc. destruct Hg as (_ & _ & (Hn & _)).
    destruct HF as [|e t' es ts [H2 H3] HF]; [congruence|].
    inversion Hc; subst. destruct (H3 ltac:(assumption)) as [v Hv]. exists v. simpl. left. exact Hv.
Qed.

Lemma ment_some x : reach g r x -> exists v, ment x v.
Proof. intros H. destruct (reach_good x H) as (tx & H1 & H2). destruct (good_mentions _ _ H1 H2) as [v Hv]. exists v, tx. auto. Qed.

Lemma ment_leaf x d : node_kind g x = Some (ULeaf d) -> forall v, ment x v <-> In v (dvars d).
Proof.
  intros Hk v. split.
  - intros (tx & Hu & Hm). inversion Hu; subst; try congruence. rewrite Hk in H. injection H as <-. exact Hm.
  - intros H. exists (PLeaf d). split; [now constructor|exact H].
Qed.

Lemma child_trees_sum x ts : unfolds g x (PSum ts) -> forall c, In c (subcircuits g x) ->
  exists wt, In wt ts /\ unfolds g c (snd wt).
Proof.
  intros H c Hc. inversion H as [|? ? Hk Hne HF|]; subst. unfold subcircuits in Hc. clear - HF Hc.
  induction HF as [|e wt es ts [H1 H2] HF IH]; [destruct Hc|]. destruct Hc as [<-|Hc]; [exists wt; split; [now left|auto]|].
  destruct (IH Hc) as (wt' & Hi & Hu). exists wt'. split; [now right|auto].
Qed.

Lemma ment_sum x c : reach g r x -> node_kind g x = Some USum -> In c (subcircuits g x) -> forall v, ment c v <-> ment x v.
Proof.
  intros Hr Hk Hc v. destruct (reach_good x Hr) as (tx & Hu & Hg).
  inversion Hu as [| ? ts Hk' Hne HF Hx|]; subst; try congruence.
  destruct (child_trees_sum _ _ Hu c Hc) as ([w tc] & Hin & Hut). simpl in Hut. split.
  - intros (tc' & Huc & Hm). rewrite (unfolds_det _ _ _ Huc _ Hut) in Hm. exists (PSum ts). split; auto.
    cbn [mentions]. rewrite fold_or_Exists. apply Exists_exists. exists (w, tc). auto.
  - intros (tx' & Hux & Hm). rewrite (unfolds_det _ _ _ Hux _ Hu) in Hm. exists tc. split; auto.
    destruct Hg as ((Hs & _) & _). specialize (Hs v Hm). rewrite fold_and_Forall, Forall_forall in Hs. apply (Hs (w, tc) Hin).
Qed.

Lemma ment_prod x : reach g r x -> node_kind g x = Some UProd ->
  pairwise_disjoint (map ment (subcircuits g x)) /\ forall v, ment x v <-> exists c, In c (subcircuits g x) /\ ment c v.
Proof.
  intros Hr Hk. destruct (reach_good x Hr) as (tx & Hu & Hg).
  inversion Hu as [| | ? ts Hk' HF Hx]; subst; try congruence. split.
  - destruct Hg as (_ & (Hpd & _) & _). clear - HF Hpd. unfold subcircuits.
    induction HF as [|e tc es ts He HF IH]; [exact I|]. cbn [map] in *. rewrite pd_cons in *. destruct Hpd as [H1 H2]. split; [|auto].
    intros q Hq v [Ha Hb]. rewrite map_map in Hq. apply in_map_iff in Hq. destruct Hq as (e' & <- & He').
    destruct Ha as (ta & Hua & Hma). destruct Hb as (tb & Hub & Hmb).
    rewrite (unfolds_det _ _ _ Hua _ He) in Hma.
    assert (Hin : In tb ts).
    { clear - HF He' Hub. induction HF as [|e'' tc es ts H HF IH]; [destruct He'|]. destruct He' as [->|He']; [|right; auto].
      left. eapply unfolds_det; eauto. }
    apply (H1 (fun v => mentions dvars tb v)) with (v := v); [apply in_map_iff; eauto|auto].
  - intros v. split.
    + intros (tx' & Hux & Hm). rewrite (unfolds_det _ _ _ Hux _ Hu) in Hm. cbn [mentions] in Hm.
      rewrite fold_or_Exists in Hm. unfold subcircuits. clear - HF Hm. induction HF as [|e tc es ts He HF IH]; [inversion Hm|].
      inversion Hm; subst.
      * exists (e_dst e). split; [now left|]. exists tc. auto.
      * destruct (IH H0) as (c & Hc & Hc'). exists c. split; [now right|auto].
    + intros (c & Hc & (tc & Huc & Hm)). exists (PProd ts). split; auto. cbn [mentions]. rewrite fold_or_Exists.
      unfold subcircuits in Hc. clear - HF Hc Huc Hm. induction HF as [|e tc' es ts He HF IH]; [destruct Hc|].
      destruct Hc as [<-|Hc]; [left|right; auto]. rewrite (unfolds_det _ _ _ He _ Huc). exact Hm.
Qed.

Lemma sum_lws x : reach g r x -> node_kind g x = Some USum -> exists lw, lws g x = Some lw.
Proof.
  intros Hr Hk. destruct (reach_good x Hr) as (tx & Hu & _). inversion Hu as [| ? ts Hk' Hne HF Hx|]; subst; try congruence.
  unfold lws, mapM. clear - HF. induction HF as [|e wt es ts [H1 H2] HF IH]; [eauto|].
  destruct IH as [lw ->]. rewrite H1. eauto.
Qed.

(** ** The partition of the variables among the units that still carry a row *)
Definition partition (M : list id) : Prop :=
  pairwise_disjoint (map ment M) /\ forall v, ment r v <-> exists x, In x M /\ ment x v.

Lemma partition_perm M M' : Permutation M M' -> partition M -> partition M'.
Proof.
  intros HP [H1 H2]. split; [eapply pd_perm; [apply Permutation_map; eauto|auto]|].
  intros v. rewrite H2. split; intros (x & Hx & Hv); exists x; split; auto;
    [eapply Permutation_in; eauto|eapply Permutation_in; [symmetry|]; eauto].
Qed.

Lemma partition_NoDup M : (forall x, In x M -> reach g r x) -> partition M -> NoDup M.
Proof.
  intros Hr [H _]. induction M as [|x M IH]; constructor.
  - intros Hin. cbn [map] in H. rewrite pd_cons in H. destruct H as [H _].
    destruct (ment_some x (Hr x (or_introl eq_refl))) as [v Hv].
    apply (H (ment x)) with (v := v); [apply in_map; auto|auto].
  - apply IH; [intros; apply Hr; now right|]. cbn [map] in H. rewrite pd_cons in H. tauto.
Qed.

Lemma partition_replace u cs M : partition (u :: M) -> pairwise_disjoint (map ment cs) ->
  (forall v, ment u v <-> exists c, In c cs /\ ment c v) -> partition (cs ++ M).
Proof.
  intros [H1 H2] Hpd Hcs. cbn [map] in H1. rewrite pd_cons in H1. destruct H1 as [H1 H3]. split.
  - rewrite map_app, pd_app. split; [auto|split; auto]. intros p q Hp Hq v [Ha Hb].
    apply in_map_iff in Hp. destruct Hp as (c & <- & Hc). apply (H1 q Hq v). split; auto. apply Hcs. eauto.
  - intros v. rewrite H2. split.
    + intros (x & [<-|Hx] & Hv).
      * apply Hcs in Hv. destruct Hv as (c & Hc & Hv). exists c. split; auto. apply in_app_iff. auto.
      * exists x. split; auto. apply in_app_iff. auto.
    + intros (x & Hx & Hv). apply in_app_iff in Hx. destruct Hx as [Hx|Hx].
      * exists u. split; [now left|]. apply Hcs. eauto.
      * exists x. split; [now right|auto].
Qed.

Section OneRow.
Variable j : nat.

Definition pend (st : requests) (suf : list id) : list id := flat_map (fun x => repeat x (N j st x)) suf.
Definition wrote (bs : list block) : list id := map b_leaf (filter (fun b => covers_row b j) bs).

Lemma count_repeat (x y : id) n : count_occ ideq (repeat x n) y = if ideq x y then n else 0.
Proof.
  induction n as [|n IH]; simpl; [now destruct (ideq x y)|]. destruct (ideq x y); rewrite IH; auto.
Qed.

Lemma count_pend st suf y : NoDup suf ->
  count_occ ideq (pend st suf) y = if in_dec ideq y suf then N j st y else 0.
Proof.
  induction suf as [|x suf IH]; intros Hn; [reflexivity|]. inversion Hn; subst. specialize (IH ltac:(assumption)).
  change (pend st (x :: suf)) with (repeat x (N j st x) ++ pend st suf). rewrite count_occ_app, count_repeat, IH.
  destruct (ideq x y) as [->|Hxy].
  - destruct (in_dec ideq y suf); [contradiction|]. destruct (in_dec ideq y (y :: suf)) as [|H]; [lia|].
    exfalso. apply H. now left.
  - destruct (in_dec ideq y suf); destruct (in_dec ideq y (x :: suf)) as [H|H]; auto; exfalso.
    + apply H. now right.
    + destruct H; auto.
Qed.

Lemma pend_routed st st' suf rt : NoDup suf -> (forall x, In x rt -> In x suf) ->
  (forall x, N j st' x = N j st x + count_occ ideq rt x) ->
  Permutation (pend st' suf) (rt ++ pend st suf).
Proof.
  intros Hn Hrt HN. apply (Permutation_count_occ ideq). intros y. rewrite count_occ_app, !count_pend by auto.
  destruct (in_dec ideq y suf) as [Hy|Hy]; [rewrite HN; lia|].
  assert (H : count_occ ideq rt y = 0) by (apply count_occ_not_In; auto). lia.
Qed.

(** The invariant of the pass: [suf] are the units still to come, [vis] the units of this row seen so far. *)
Record inv (ch : id -> id) (vis suf : list id) (st : requests) (bs : list block) : Prop := {
  inv_part : partition (wrote bs ++ pend st suf);
  inv_root : In r vis \/ In r (pend st suf);
  inv_sum : forall u, In u vis -> node_kind g u = Some USum ->
    allowed_child P g u (ch u) /\ (In (ch u) vis \/ In (ch u) (pend st suf));
  inv_prod : forall u c, In u vis -> node_kind g u = Some UProd -> In c (subcircuits g u) ->
    In c vis \/ In c (pend st suf);
  inv_vis : forall ch', (forall y, In y vis -> ch' y = ch y) ->
    forall x, In x vis \/ In x (pend st suf) -> visited g r ch' x;
  inv_leaf : forall u d, node_kind g u = Some (ULeaf d) -> (In u vis <-> In u (wrote bs));
  inv_wrote : forall u, In u (wrote bs) -> exists d, node_kind g u = Some (ULeaf d);
  inv_new : forall u, In u vis -> ~ In u suf;
  inv_reach : forall u, In u suf \/ In u (wrote bs) -> reach g r u
}.

Lemma pend_In st suf x : In x (pend st suf) <-> In x suf /\ 0 < N j st x.
Proof.
  unfold pend. rewrite in_flat_map. split.
  - intros (y & Hy & Hx). pose proof (repeat_spec _ _ _ Hx). subst y. split; auto.
    destruct (N j st x); [destruct Hx|lia].
  - intros [H1 H2]. exists x. split; auto. destruct (N j st x); [lia|]. now left.
Qed.

Lemma pend_cons st u suf : pend st (u :: suf) = repeat u (N j st u) ++ pend st suf.
Proof. reflexivity. Qed.

Lemma inv_one ch vis u suf st bs : inv ch vis (u :: suf) st bs -> N j st u <= 1.
Proof.
  intros H. assert (HN : NoDup (wrote bs ++ pend st (u :: suf))).
  { apply partition_NoDup; [|apply (inv_part _ _ _ _ _ H)]. intros x Hx. apply (inv_reach _ _ _ _ _ H).
    apply in_app_iff in Hx. rewrite pend_In in Hx. tauto. }
  rewrite pend_cons in HN. destruct (N j st u) as [|[|n]]; [lia|lia|]. exfalso. simpl in HN.
  apply NoDup_remove in HN. destruct HN as [_ HN]. apply HN. apply in_app_iff. right. now left.
Qed.

(** Nothing happens to a row that does not pass through the unit. *)
Lemma inv_skip ch vis u suf st bs st' : NoDup (u :: suf) -> inv ch vis (u :: suf) st bs -> N j st u = 0 ->
  (forall x, N j st' x = N j st x) -> inv ch vis suf st' bs.
Proof.
  intros Hn H H0 HN. assert (HP : pend st' suf = pend st (u :: suf)).
  { rewrite pend_cons, H0. simpl. unfold pend. apply flat_map_ext. intros x. now rewrite HN. }
  destruct H. split; rewrite ?HP; auto.
  - intros x Hx Hs. apply (inv_new0 x Hx). now right.
  - intros x [Hx|Hx]; apply inv_reach0; [left; now right|auto].
Qed.

(** A unit that passes its row on to the children [rt]. *)
Lemma inv_inner ch vis u suf st bs st' rt : NoDup (u :: suf) -> inv ch vis (u :: suf) st bs -> N j st u = 1 ->
  (forall x, N j st' x = N j st x + count_occ ideq rt x) ->
  (forall x, In x rt -> In x suf) ->
  pairwise_disjoint (map ment rt) -> (forall v, ment u v <-> exists c, In c rt /\ ment c v) ->
  node_kind g u <> None -> (forall d, node_kind g u <> Some (ULeaf d)) ->
  (node_kind g u = Some USum -> exists c, rt = [c] /\ allowed_child P g u c) ->
  (node_kind g u = Some UProd -> rt = subcircuits g u) ->
  exists ch', inv ch' (u :: vis) suf st' bs.
Proof.
  intros Hn H H1 HN Hrt Hpd Hcov Hsome Hnl Hsum Hprod.
  set (c0 := match rt with c :: _ => c | [] => u end).
  set (ch' := fun x => if x =? u then c0 else ch x).
  assert (Hnu : ~ In u vis). { intros Hu. apply (inv_new _ _ _ _ _ H u Hu). now left. }
  assert (Hagree : forall y, In y vis -> ch' y = ch y).
  { intros y Hy. unfold ch'. destruct (y =? u) eqn:E; auto. apply Nat.eqb_eq in E. subst. contradiction. }
  inversion Hn as [|? ? Hus Hns]; subst.
  pose proof (pend_routed st st' suf rt Hns Hrt HN) as HP.
  assert (Hpu : pend st (u :: suf) = u :: pend st suf) by (rewrite pend_cons, H1; reflexivity).
  assert (Hin : forall x, In x (pend st' suf) <-> In x rt \/ In x (pend st suf)).
  { intros x. split; intros Hx.
    - eapply Permutation_in in Hx; [|exact HP]. now apply in_app_iff.
    - eapply Permutation_in; [symmetry; exact HP|]. now apply in_app_iff. }
  assert (Hmono : forall x, In x vis \/ In x (pend st (u :: suf)) -> In x (u :: vis) \/ In x (pend st' suf)).
  { intros x. rewrite Hpu, Hin. simpl. tauto. }
  exists ch'. destruct H. split.
  - eapply partition_perm; [apply Permutation_app_head; symmetry; exact HP|].
    eapply partition_perm; [apply Permutation_app_swap_app|].
    apply partition_replace with (u := u); auto.
    eapply partition_perm; [|exact inv_part0]. rewrite Hpu. symmetry. apply Permutation_middle.
  - apply Hmono. auto.
  - intros x [<-|Hx] Hk.
    + destruct (Hsum Hk) as (c & -> & Hw). unfold ch'. rewrite Nat.eqb_refl. subst c0. simpl. split; auto.
      right. apply Hin. left. now left.
    + rewrite Hagree by auto. destruct (inv_sum0 x Hx Hk) as [Ha Hb]. split; auto.
  - intros x c [<-|Hx] Hk Hc.
    + right. apply Hin. left. rewrite Hprod; auto.
    + apply Hmono. eauto.
  - intros ch'' Hch x Hx.
    assert (Hold : forall y, In y vis \/ In y (pend st (u :: suf)) -> visited g r ch'' y).
    { apply inv_vis0. intros y Hy. rewrite Hch by (now right). auto. }
    assert (Hu : visited g r ch'' u) by (apply Hold; right; rewrite Hpu; now left).
    rewrite Hin in Hx. destruct Hx as [[<-|Hx]|[Hx|Hx]]; auto.
    + destruct (node_kind g u) as [[d| |]|] eqn:Hk.
      * exfalso. now apply (Hnl d).
      * destruct (Hsum eq_refl) as (c & -> & _). destruct Hx as [<-|[]].
        assert (E : ch'' u = c) by (rewrite Hch by (now left); unfold ch'; rewrite Nat.eqb_refl; reflexivity).
        rewrite <- E. now apply vis_sum.
      * rewrite (Hprod eq_refl) in Hx. eapply vis_prod; eauto.
      * exfalso. now apply Hsome.
    + apply Hold. right. rewrite Hpu. now right.
  - intros x d Hk. rewrite <- (inv_leaf0 x d Hk). simpl. split; [|auto]. intros [<-|Hx]; auto. exfalso. now apply (Hnl d).
  - auto.
  - intros x [<-|Hx] Hs; [auto|]. apply (inv_new0 x Hx). now right.
  - intros x [Hx|Hx]; apply inv_reach0; [left; now right|auto].
Qed.

Lemma wrote_app b1 b2 : wrote (b1 ++ b2) = wrote b1 ++ wrote b2.
Proof. unfold wrote. now rewrite filter_app, map_app. Qed.

Lemma wrote_leaf u cols (qs : list request) :
  wrote (map (fun q => mkBlock u (fst q) (snd q) cols) qs) = repeat u (length (filter (hit j) qs)).
Proof.
  unfold wrote. induction qs as [|q qs IH]; simpl; auto. unfold covers_row at 1, hit at 1. simpl.
  destruct ((fst q <=? j) && (j <? fst q + snd q)); simpl; now rewrite IH.
Qed.

Lemma inv_leaf_step ch vis u suf st bs d cols : NoDup (u :: suf) -> inv ch vis (u :: suf) st bs ->
  node_kind g u = Some (ULeaf d) -> N j st u = 1 ->
  inv ch (u :: vis) suf st (bs ++ map (fun q => mkBlock u (fst q) (snd q) cols) (st u)).
Proof.
  intros Hn H Hk H1.
  assert (Hw : wrote (bs ++ map (fun q => mkBlock u (fst q) (snd q) cols) (st u)) = wrote bs ++ [u]).
  { rewrite wrote_app, wrote_leaf. unfold N in H1. now rewrite H1. }
  assert (Hpu : pend st (u :: suf) = u :: pend st suf) by (rewrite pend_cons, H1; reflexivity).
  inversion Hn as [|? ? Hus Hns]; subst.
  assert (Hmono : forall x, In x vis \/ In x (pend st (u :: suf)) -> In x (u :: vis) \/ In x (pend st suf)).
  { intros x. rewrite Hpu. simpl. tauto. }
  destruct H. split; rewrite ?Hw.
  - rewrite <- app_assoc. simpl. rewrite <- Hpu. auto.
  - auto.
  - intros x [<-|Hx] Hk'; [congruence|]. destruct (inv_sum0 x Hx Hk') as [Ha Hb]. auto.
  - intros x c [<-|Hx] Hk' Hc; [congruence|]. apply Hmono. eauto.
  - intros ch' Hch x Hx. apply inv_vis0; [intros y Hy; apply Hch; now right|]. rewrite Hpu. simpl in *. tauto.
  - intros x d' Hk'. rewrite in_app_iff. simpl. rewrite (inv_leaf0 x d' Hk'). tauto.
  - intros x Hx. apply in_app_iff in Hx. destruct Hx as [Hx|[<-|[]]]; eauto.
  - intros x [<-|Hx] Hs; [auto|]. apply (inv_new0 x Hx). now right.
  - intros x [Hx|Hx]; [apply inv_reach0; left; now right|]. apply in_app_iff in Hx.
    destruct Hx as [Hx|[<-|[]]]; apply inv_reach0; [auto|left; now left].
Qed.
End OneRow.

(** ** The whole pass *)
Definition columns_ok (vars : list nat) (b : block) : Prop :=
  exists d, node_kind g (b_leaf b) = Some (ULeaf d) /\
    forall i, In i (b_columns b) <-> exists v, In v (dvars d) /\ nth_error vars i = Some v.

Lemma var_index_sound vars v i : var_index vars v = Some i -> nth_error vars i = Some v.
Proof.
  revert i. induction vars as [|w vs IH]; simpl; intros i H; [discriminate|]. destruct (w =? v) eqn:E.
  - injection H as <-. apply Nat.eqb_eq in E. now subst.
  - destruct (var_index vs v); [|discriminate]. injection H as <-. simpl. auto.
Qed.

Lemma columns_spec vars l : NoDup vars -> (forall v, In v l -> In v vars) ->
  exists cols, mapM (var_index vars) l = Some cols /\
    forall i, In i cols <-> exists v, In v l /\ nth_error vars i = Some v.
Proof.
  intros Hn. unfold mapM. induction l as [|v l IH]; intros H.
  - exists []. split; auto. intros i. split; [intros []|intros (v & [] & _)].
  - destruct IH as (cols & Hc & Hs); [intros; apply H; now right|].
    destruct (var_index_spec vars v (H v (or_introl eq_refl))) as (i & Hi & Hnth).
    rewrite Hi, Hc. exists (i :: cols). split; auto. intros k. simpl. rewrite Hs. split.
    + intros [<-|(w & Hw & Hk)]; [exists v; auto|exists w; auto].
    + intros (w & [<-|Hw] & Hk); [left|right; eauto].
      rewrite NoDup_nth_error in Hn. apply Hn; [|congruence]. apply nth_error_Some. congruence.
Qed.

Lemma NoDup_subcircuits u : NoDup (subcircuits g u).
Proof.
  pose proof (wf_edges g Hwf) as H. unfold subcircuits, out_edges. induction (g_edges g) as [|e l IH]; simpl; [constructor|].
  simpl in H. inversion H; subst. destruct (e_src e =? u) eqn:E; simpl; auto. constructor; auto.
  intros Hin. apply in_map_iff in Hin. destruct Hin as (e' & He & Hin). apply filter_In in Hin. destruct Hin as [Hin Hs].
  apply Nat.eqb_eq in E, Hs. apply H2. apply in_map_iff. exists e'. split; auto. congruence.
Qed.

Variable draw : draws.
Variable vars : list nat.
Variable n : nat.
Hypothesis Hdraw : possible g draw.
Hypothesis Hresp : respects P g draw.
Hypothesis Hnv : NoDup vars.
Hypothesis Hvars : forall v, In v vars <-> mentions dvars t v.

Lemma vars_ment v : In v vars <-> ment r v.
Proof.
  rewrite Hvars. split; [intros H; exists t; auto|]. intros (t' & Hu & H). now rewrite (unfolds_det _ _ _ Hu _ Hunf) in H.
Qed.

Lemma ment_below x v : reach g r x -> ment x v -> ment r v.
Proof.
  intros Hr. revert v. induction Hr as [|w e Hw IH He Hs]; auto. intros v Hv. apply IH.
  assert (Hc : In (e_dst e) (subcircuits g w)) by (apply subcircuits_In; eauto).
  destruct (reach_good w Hw) as (tw & Hu & _). inversion Hu as [? d Hk|? ts Hk|? ts Hk]; subst.
  - exfalso. exact (Hlt e d He Hk).
  - now apply (ment_sum _ (e_dst e) Hw Hk Hc).
  - apply (proj2 (ment_prod _ Hw Hk)). eauto.
Qed.

Lemma pass_spec : forall suf st bs, NoDup suf -> (forall x, In x suf -> reach g r x) ->
  (forall pre u post, suf = pre ++ u :: post -> forall c, In c (subcircuits g u) -> In c post) ->
  in_rows n st -> (forall b, In b bs -> b_start b + b_amount b <= n /\ columns_ok vars b) ->
  (forall j, j < n -> exists ch vis, inv j ch vis suf st bs) ->
  exists st' bs', foldM (unit_sample dvars draw vars g) suf (st, bs) = Some (st', bs') /\
    (forall b, In b bs' -> b_start b + b_amount b <= n /\ columns_ok vars b) /\
    (forall j, j < n -> exists ch vis, inv j ch vis [] st' bs').
Proof.
  induction suf as [|u suf IH]; intros st bs Hn Hre Htopo Hst Hbs Hinv.
  - exists st, bs. simpl. auto.
  - assert (Hru : reach g r u) by (apply Hre; now left).
    inversion Hn as [|? ? Hus Hns]; subst.
    assert (Hch : forall c, In c (subcircuits g u) -> In c suf) by (intros c Hc; eapply (Htopo []); eauto; reflexivity).
    assert (Htopo' : forall pre u' post, suf = pre ++ u' :: post -> forall c, In c (subcircuits g u') -> In c post).
    { intros pre u' post E c Hc. apply (Htopo (u :: pre) u' post); [rewrite E; reflexivity|auto]. }
    assert (Hre' : forall x, In x suf -> reach g r x) by (intros; apply Hre; now right).
    destruct (reach_good u Hru) as (tu & Huu & Hgood).
    assert (Hone : forall j, j < n -> N j st u <= 1).
    { intros j Hj. destruct (Hinv j Hj) as (ch & vis & H). eapply inv_one; eauto. }
    cbn [foldM]. unfold unit_sample at 1. cbn [fst snd].
    inversion Huu as [? d Hk|? ts Hk|? ts Hk]; subst; rewrite Hk.
    + unfold leaf_sample.
      destruct (columns_spec vars (sset_of (dvars d)) Hnv) as (cols & Hc & Hs).
      { intros v Hv. apply vars_ment. apply ment_below with (x := u); auto. apply (ment_leaf u d Hk).
        now apply sset_of_In. }
      rewrite Hc. apply IH; auto.
      * intros b Hb. apply in_app_iff in Hb. destruct Hb as [Hb|Hb]; auto. apply in_map_iff in Hb.
        destruct Hb as (q & <- & Hq). simpl. split; [eapply Hst; eauto|]. exists d. simpl. split; auto.
        intros i. rewrite Hs. split; intros (v & Hv & Hi); exists v; split; auto; now apply sset_of_In.
      * intros j Hj. destruct (Hinv j Hj) as (ch & vis & H). pose proof (Hone j Hj) as H1.
        destruct (N j st u) as [|[|]] eqn:EN; [|exists ch, (u :: vis); eapply inv_leaf_step; eauto|lia].
        exists ch, vis. assert (Hw : wrote j (bs ++ map (fun q => mkBlock u (fst q) (snd q) cols) (st u)) = wrote j bs).
        { rewrite wrote_app, wrote_leaf. unfold N in EN. rewrite EN. simpl. apply app_nil_r. }
        pose proof (inv_skip j ch vis u suf st bs st Hn H EN ltac:(auto)) as H'.
        destruct H'. split; rewrite ?Hw; auto.
    + destruct (sum_lws u Hru Hk) as [lw Hlw].
      destruct (sum_sample_spec P draw g u n st lw Hk Hdraw Hresp Hlw Hst) as (st' & Hst' & Hr' & Hrt).
      rewrite Hst'. apply IH; auto.
      intros j Hj. destruct (Hinv j Hj) as (ch & vis & Hi). pose proof (Hone j Hj) as H1.
      destruct (Hrt j) as (rt & Ha & Hb & Hc).
      destruct (N j st u) as [|[|]] eqn:EN; [|idtac|lia].
      * destruct rt; [|discriminate]. exists ch, vis. eapply inv_skip; eauto. intros x. rewrite Ha. simpl. lia.
      * destruct rt as [|c [|]]; try discriminate. inversion Hc as [|? ? Hw _]; subst.
        assert (Hcs : In c (subcircuits g u)) by apply Hw.
        destruct (inv_inner j ch vis u suf st bs st' [c] Hn Hi EN Ha) as (ch' & H').
        -- intros x [<-|[]]. auto.
        -- cbn [map]. rewrite pd_cons. split; [intros q []|exact I].
        -- intros v. rewrite <- (ment_sum u c Hru Hk Hcs). split; [intros Hv; exists c; split; [now left|auto]|].
           intros (c' & [<-|[]] & Hv). auto.
        -- congruence.
        -- intros d. congruence.
        -- intros _. exists c. auto.
        -- congruence.
        -- eauto.
    + destruct (prod_sample_spec g u n st Hst) as [Hr' HN]. apply IH; auto.
      intros j Hj. destruct (Hinv j Hj) as (ch & vis & Hi). pose proof (Hone j Hj) as H1.
      destruct (N j st u) as [|[|]] eqn:EN; [|idtac|lia].
      * exists ch, vis. eapply inv_skip; eauto. intros x. rewrite HN, EN. lia.
      * destruct (ment_prod u Hru Hk) as [Hpd Hcov].
        destruct (inv_inner j ch vis u suf st bs (prod_sample g u st) (subcircuits g u) Hn Hi EN) as (ch' & H'); auto;
          try congruence; eauto.
        intros x. rewrite HN, EN. lia.
Qed.

Theorem sample_correct : circuit_variables dvars g = Some vars ->
  exists bs, sample_blocks dvars draw g n = Some bs /\
    (forall b, In b bs -> b_start b + b_amount b <= n /\ columns_ok vars b) /\
    forall j, j < n -> exists ch,
      (forall u, visited g r ch u -> node_kind g u = Some USum -> allowed_child P g u (ch u)) /\
      (forall u d, node_kind g u = Some (ULeaf d) -> (visited g r ch u <-> In u (wrote j bs))) /\
      NoDup (wrote j bs) /\ partition (wrote j bs).
Proof.
  intros Hcv. unfold sample_blocks. rewrite Hcv, Hroot.
  destruct (bottom_up_spec g r Hwf Hroot) as (ls & Hls & _ & ->).
  pose proof (layers_from_In _ _ _ Hls) as Hin. pose proof (layers_from_NoDup _ _ _ Hls) as Hnd.
  pose proof (graded_topo_down _ _ _ Hgraded Hls) as Htopo.
  destruct (pass_spec (concat ls) (push (fun _ => []) r (0, n)) []) as (st' & bs & Hf & Hbs & Hinv); auto.
  - intros x. now apply Hin.
  - apply in_rows_push; [intros x q []|simpl; lia].
  - intros b [].
  - intros j Hj. exists (fun x => x), [].
    assert (Hr0 : forall x, N j (push (fun _ => []) r (0, n)) x = count_occ ideq [r] x).
    { intros x. rewrite N_push. unfold N, hit. simpl. destruct (j <? n) eqn:E; [|apply Nat.ltb_ge in E; lia].
      destruct (ideq r x) as [->|Hne]; [now rewrite Nat.eqb_refl|].
      destruct (x =? r) eqn:E2; [apply Nat.eqb_eq in E2; congruence|reflexivity]. }
    assert (HP : Permutation (pend j (push (fun _ => []) r (0, n)) (concat ls)) [r]).
    { assert (HE : pend j (fun _ : id => []) (concat ls) = []).
      { unfold pend, N. simpl. clear. induction (concat ls); auto. }
      pose proof (pend_routed j (fun _ => []) (push (fun _ => []) r (0, n)) (concat ls) [r] Hnd) as HR.
      rewrite HE in HR. apply HR; [|exact Hr0]. intros x [<-|[]]. apply Hin. constructor. }
    assert (HrI : forall x, In x (pend j (push (fun _ => []) r (0, n)) (concat ls)) <-> x = r).
    { intros x. split; intros H; [eapply Permutation_in in H; [|exact HP]; destruct H as [H|[]]; auto|].
      subst. eapply Permutation_in; [symmetry; exact HP|]. now left. }
    split; try (intros; contradiction).
    + simpl. eapply partition_perm; [symmetry; exact HP|]. split.
      * cbn [map]. rewrite pd_cons. split; [intros q []|exact I].
      * intros v. split; [intros H; exists r; split; [now left|auto]|]. intros (x & [<-|[]] & H). auto.
    + right. now apply HrI.
    + intros ch' _ x [[]|Hx]. apply HrI in Hx. subst. constructor.
    + intros u d Hk. simpl. tauto.
    + intros x [Hx|[]]. now apply Hin.
  - rewrite Hf. exists bs. split; [auto|]. split; [auto|]. intros j Hj.
    destruct (Hinv j Hj) as (ch & vis & H). exists ch. destruct H. simpl in *. rewrite app_nil_r in inv_part0.
    assert (Hvis : forall u, visited g r ch u <-> In u vis).
    { intros u. split; [|intros Hu; apply inv_vis0; auto]. induction 1 as [|u Hu IHu Hk|u c Hu IHu Hk Hc].
      - tauto.
      - destruct (inv_sum0 u IHu Hk) as [_ [Hx|[]]]. auto.
      - destruct (inv_prod0 u c IHu Hk Hc) as [Hx|[]]. auto. }
    split; [|split; [|split; auto]].
    + intros u Hu Hk. apply inv_sum0; auto. now apply Hvis.
    + intros u d Hk. rewrite Hvis. eauto.
    + apply partition_NoDup; auto.
Qed.
End Main.
