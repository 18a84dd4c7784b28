(** * SampleFacts: where the rows of a sample come from *)
From Coq Require Import List Arith Bool Lia Permutation.
From Verif Require Import Num Graph GraphFacts Spec SpecFacts Circuit EvalFacts VarFacts Copy Sample.
Import ListNotations.

Definition ideq : forall a b : id, {a = b} + {a <> b} := Nat.eq_dec.

Lemma foldM_app {A B} (f : A -> B -> option A) l1 : forall l2 a,
  foldM f (l1 ++ l2) a = match foldM f l1 a with None => None | Some a' => foldM f l2 a' end.
Proof. induction l1 as [|x l1 IH]; simpl; intros; auto. destruct (f a x); auto. Qed.

(** ** Pairwise disjoint families *)
Lemma pd_cons (p : nat -> Prop) l : pairwise_disjoint (p :: l) <->
  (forall q, In q l -> forall v, ~ (p v /\ q v)) /\ pairwise_disjoint l.
Proof.
  simpl. rewrite fold_and_Forall, Forall_forall. tauto.
Qed.

Lemma pd_app l1 : forall l2, pairwise_disjoint (l1 ++ l2) <->
  pairwise_disjoint l1 /\ pairwise_disjoint l2 /\ forall p q, In p l1 -> In q l2 -> forall v, ~ (p v /\ q v).
Proof.
  induction l1 as [|p l1 IH]; intros l2.
  - simpl. firstorder.
  - change ((p :: l1) ++ l2) with (p :: (l1 ++ l2)). rewrite !pd_cons, IH. split.
    + intros (H1 & H2 & H3 & H4). split; [split; auto|split; auto].
      * intros q Hq. apply H1. apply in_app_iff. auto.
      * intros p' q [<-|Hp] Hq; [apply H1; apply in_app_iff; auto|auto].
    + intros ((H1 & H2) & H3 & H4). split; [|split; [auto|split; auto]].
      * intros q Hq. apply in_app_iff in Hq. destruct Hq; [auto|apply H4; [now left|auto]].
      * intros p' q Hp Hq. apply H4; auto. now right.
Qed.

Lemma pd_perm l l' : Permutation l l' -> pairwise_disjoint l -> pairwise_disjoint l'.
Proof.
  induction 1; auto.
  - rewrite !pd_cons. intros [H1 H2]. split; auto. intros q Hq. apply H1. eapply Permutation_in; [|exact Hq]. now symmetry.
  - rewrite !pd_cons. intros (H1 & H2 & H3). split; [|split; auto].
    + intros q [<-|Hq] v [Ha Hb]; [apply (H1 x (or_introl eq_refl) v); auto|apply (H2 q Hq v); auto].
    + intros q Hq. apply H1. now right.
Qed.

Section Sampling.
Context {D : Type}.
Variable dvars : D -> list nat.
Implicit Types g : graph D.

(** Which children may get rows. *)
Variable P : id -> id -> Prop.
Definition allowed_child g (u c : id) : Prop := In c (subcircuits g u) /\ P u c.

(** ** One row *)
Section Row.
Variable j : nat.
Definition hit (q : request) : bool := (fst q <=? j) && (j <? fst q + snd q).
Definition N (st : requests) (x : id) : nat := length (filter hit (st x)).
Definition hits (l : list (id * request)) : list id := map fst (filter (fun cq => hit (snd cq)) l).

Lemma N_push st c q x : N (push st c q) x = N st x + (if (x =? c) && hit q then 1 else 0).
Proof.
  unfold N, push. destruct (x =? c); simpl; [|lia]. rewrite filter_app, app_length. simpl. destruct (hit q); simpl; lia.
Qed.

Lemma N_push_all l : forall st x, N (push_all st l) x = N st x + count_occ ideq (hits l) x.
Proof.
  unfold push_all, hits. induction l as [|[c q] l IH]; simpl; intros; [lia|].
  rewrite IH, N_push. destruct (hit q) eqn:E; simpl.
  - destruct (ideq c x) as [->|Hn]; [rewrite Nat.eqb_refl; simpl; lia|].
    destruct (x =? c) eqn:Ex; [apply Nat.eqb_eq in Ex; congruence|]. simpl. lia.
  - rewrite andb_false_r. lia.
Qed.

Lemma hits_cons c q l : hits ((c, q) :: l) = if hit q then c :: hits l else hits l.
Proof. unfold hits. simpl. now destruct (hit q). Qed.

Lemma hits_consecutive l : forall s,
  (s <= j < s + list_sum (map snd l) -> exists c n, hits (consecutive s l) = [c] /\ In (c, n) l /\ 0 < n) /\
  (~ (s <= j < s + list_sum (map snd l)) -> hits (consecutive s l) = []).
Proof.
  induction l as [|[c n] l IH]; intros s; simpl.
  - split; [lia|auto].
  - rewrite hits_cons. destruct (IH (s + n)) as [IH1 IH2]. unfold hit. cbn [fst snd].
    destruct (s <=? j) eqn:E1; destruct (j <? s + n) eqn:E2; cbn [andb];
      first [apply Nat.leb_le in E1|apply Nat.leb_gt in E1]; first [apply Nat.ltb_lt in E2|apply Nat.ltb_ge in E2].
    + split; [|intros; exfalso; lia]. intros _. exists c, n. split; [|split; [auto|lia]]. f_equal. apply IH2. lia.
    + split.
      * intros H. destruct IH1 as (c' & n' & H1 & H2 & H3); [lia|]. exists c', n'. auto.
      * intros H. apply IH2. lia.
    + split; [intros; exfalso; lia|]. intros _. apply IH2. lia.
    + exfalso; lia.
Qed.

(** ** A unit that has been given requests *)

Lemma mapM_nth (cs : list id) (ns : list nat) order : length ns = length cs -> (forall i, In i order -> i < length cs) ->
  exists l, mapM (fun i => match nth_error cs i, nth_error ns i with Some c, Some n => Some (c, n) | _, _ => None end) order = Some l /\
    map snd l = map (fun i => nth i ns 0) order /\
    forall c n, In (c, n) l -> exists i, nth_error cs i = Some c /\ nth_error ns i = Some n.
Proof.
  intros Hlen. unfold mapM. induction order as [|i order IH]; intros H.
  - exists []. simpl. firstorder.
  - destruct IH as (l & Hl & Hs & Hi); [intros; apply H; now right|].
    assert (Hlt : i < length cs) by (apply H; now left).
    destruct (nth_error cs i) as [c|] eqn:Ec; [|apply nth_error_None in Ec; lia].
    destruct (nth_error ns i) as [n|] eqn:En; [|apply nth_error_None in En; lia].
    exists ((c, n) :: l). rewrite Hl. split; [auto|]. split.
    + simpl. f_equal; auto. symmetry. now apply nth_error_nth.
    + intros c' n' [E|Hin]; [injection E as <- <-; eauto|eauto].
Qed.

Lemma map_nth_seq (ns : list nat) : map (fun i => nth i ns 0) (seq 0 (length ns)) = ns.
Proof.
  induction ns as [|n ns IH]; simpl; auto. f_equal. rewrite <- seq_shift, map_map. exact IH.
Qed.

Lemma list_sum_perm l l' : Permutation l l' -> list_sum l = list_sum l'.
Proof. induction 1; simpl; lia. Qed.

Lemma sum_request_spec g u dr q : possible_draw g u (snd q) dr ->
  (forall i e m, nth_error (out_edges g u) i = Some e -> nth_error (fst dr) i = Some m -> 0 < m -> P u (e_dst e)) ->
  exists l, sum_request (subcircuits g u) dr q = Some l /\
    (forall c q', In (c, q') l -> In c (subcircuits g u) /\ fst q <= fst q' /\ fst q' + snd q' <= fst q + snd q) /\
    (if hit q then exists c, hits l = [c] /\ allowed_child g u c else hits l = []).
Proof.
  intros (H1 & H2 & _ & H4) H3. unfold sum_request.
  assert (Hsub : length (subcircuits g u) = length (out_edges g u)) by (unfold subcircuits; now rewrite map_length).
  destruct (mapM_nth (subcircuits g u) (fst dr) (snd dr)) as (l & Hl & Hs & Hi).
  - now rewrite Hsub.
  - intros i Hi. eapply Permutation_in in Hi; [|exact H4]. apply in_seq in Hi. lia.
  - rewrite Hl. exists (consecutive (fst q) l). split; [auto|].
    assert (Hsum : list_sum (map snd l) = snd q).
    { rewrite Hs. rewrite (list_sum_perm _ (map (fun i => nth i (fst dr) 0) (seq 0 (length (out_edges g u))))).
      - rewrite <- H1, map_nth_seq. exact H2.
      - now apply Permutation_map. }
    split.
    + assert (Haux : forall l s c q', In (c, q') (consecutive s l) ->
        In c (map fst l) /\ s <= fst q' /\ fst q' + snd q' <= s + list_sum (map snd l)).
      { clear. induction l as [|[c n] l IH]; simpl; [tauto|]. intros s c' q' [E|H].
        - injection E as <- <-. simpl. split; [auto|lia].
        - apply IH in H. destruct H as (Ha & Hb & Hc). split; [auto|lia]. }
      intros c q' Hin. apply Haux in Hin. rewrite Hsum in Hin. destruct Hin as (Ha & Hb & Hc). split; [|auto].
      apply in_map_iff in Ha. destruct Ha as ([c' n'] & <- & Hc'). apply Hi in Hc'. destruct Hc' as (i & Hn & _).
      eapply nth_error_In; eauto.
    + destruct (hits_consecutive l (fst q)) as [Ha Hb]. unfold hit. rewrite Hsum in Ha, Hb.
      destruct (fst q <=? j) eqn:E1; destruct (j <? fst q + snd q) eqn:E2; simpl;
        first [apply Nat.leb_le in E1|apply Nat.leb_gt in E1]; first [apply Nat.ltb_lt in E2|apply Nat.ltb_ge in E2];
        try (apply Hb; lia).
      destruct Ha as (c & n & Hh & Hin & Hpos); [lia|]. exists c. split; auto.
      apply Hi in Hin. destruct Hin as (i & Hci & Hni). unfold subcircuits in Hci. rewrite nth_error_map in Hci.
      destruct (nth_error (out_edges g u) i) as [e|] eqn:Ee; simpl in Hci; [|discriminate].
      injection Hci as <-. split; [|eapply H3; eauto].
      unfold subcircuits. apply in_map. eapply nth_error_In; eauto.
Qed.

Lemma hits_incl l c : In c (hits l) -> exists q, In (c, q) l.
Proof.
  unfold hits. intros H. apply in_map_iff in H. destruct H as ([c' q] & <- & H). apply filter_In in H. destruct H. eauto.
Qed.
End Row.

(** Every request stays within the rows of the array. *)
Definition in_rows (n : nat) (st : requests) : Prop := forall x q, In q (st x) -> fst q + snd q <= n.

Lemma in_rows_push n st c q : in_rows n st -> fst q + snd q <= n -> in_rows n (push st c q).
Proof.
  intros H Hq x q' Hin. unfold push in Hin. destruct (x =? c); [|eauto].
  apply in_app_iff in Hin. destruct Hin as [Hin|[<-|[]]]; eauto.
Qed.

Lemma in_rows_push_all n l : forall st, in_rows n st -> (forall c q, In (c, q) l -> fst q + snd q <= n) -> in_rows n (push_all st l).
Proof.
  unfold push_all. induction l as [|[c q] l IH]; simpl; intros st H Hl; auto.
  apply IH; [|eauto]. apply in_rows_push; eauto.
Qed.

(** What the unit [u] did to the requests of the others. *)
Definition routed g (u : id) (j : nat) (st st' : requests) : Prop :=
  exists rt : list id, (forall x, N j st' x = N j st x + count_occ ideq rt x) /\ length rt = N j st u /\
    Forall (allowed_child g u) rt.

Definition sum_step (draw : draws) g (u : id) (st : requests) (kq : nat * request) : option requests :=
  match sum_request (subcircuits g u) (draw u (fst kq) (snd (snd kq))) (snd kq) with
  | None => None
  | Some l => Some (push_all st l)
  end.

Lemma sum_steps (draw : draws) g u n : node_kind g u = Some USum -> possible g draw -> respects P g draw ->
  forall (l : list (nat * request)) st, in_rows n st -> (forall k q, In (k, q) l -> fst q + snd q <= n) ->
  exists st', foldM (sum_step draw g u) l st = Some st' /\ in_rows n st' /\
    forall j, exists rt : list id, (forall x, N j st' x = N j st x + count_occ ideq rt x) /\
      length rt = length (filter (hit j) (map snd l)) /\ Forall (allowed_child g u) rt.
Proof.
  intros Hk Hd Hp. induction l as [|[k q] l IH]; simpl; intros st Hst Hl.
  - exists st. split; [auto|]. split; [auto|]. intros j. exists []. simpl. repeat split; auto; intros; lia.
  - destruct (sum_request_spec 0 g u (draw u k (snd q)) q) as (lq & Hq & Hin & _); [now apply Hd|intros; eapply Hp; eauto|].
    unfold sum_step at 1. simpl. rewrite Hq.
    destruct (IH (push_all st lq)) as (st' & Hf & Hr & Hn).
    + apply in_rows_push_all; auto. intros c q' Hc. apply Hin in Hc. specialize (Hl k q (or_introl eq_refl)). lia.
    + eauto.
    + exists st'. split; [auto|]. split; [auto|]. intros j. destruct (Hn j) as (rt & Ha & Hb & Hc).
      destruct (sum_request_spec j g u (draw u k (snd q)) q) as (lq' & Hq' & _ & Hh); [now apply Hd|intros; eapply Hp; eauto|].
      rewrite Hq in Hq'. injection Hq' as <-.
      exists (hits j lq ++ rt). split; [|split].
      * intros x. rewrite Ha, N_push_all, count_occ_app. symmetry. apply Nat.add_assoc.
      * rewrite app_length, Hb. destruct (hit j q); [destruct Hh as (c & -> & _)|rewrite Hh]; reflexivity.
      * apply Forall_app. split; auto. destruct (hit j q); [destruct Hh as (c & -> & Hw)|rewrite Hh]; auto.
Qed.

Lemma map_snd_numbered {A} (l : list A) : map snd (numbered l) = l.
Proof.
  unfold numbered. generalize 0. induction l as [|x l IH]; intros k; simpl; auto. f_equal. apply IH.
Qed.

Lemma sum_sample_spec (draw : draws) g u n st lw : node_kind g u = Some USum -> possible g draw -> respects P g draw -> lws g u = Some lw ->
  in_rows n st ->
  exists st', sum_sample draw g u st = Some st' /\ in_rows n st' /\ forall j, routed g u j st st'.
Proof.
  intros Hk Hd Hp Hlw Hst. unfold sum_sample. rewrite Hlw.
  destruct (sum_steps draw g u n Hk Hd Hp (numbered (st u)) st Hst) as (st' & Hf & Hr & Hn).
  - intros k q Hin. apply (in_map snd) in Hin. rewrite map_snd_numbered in Hin. eapply Hst; eauto.
  - exists st'. split; [exact Hf|]. split; [auto|]. intros j. destruct (Hn j) as (rt & Ha & Hb & Hc).
    exists rt. rewrite map_snd_numbered in Hb. auto.
Qed.

(** Only the children's requests change. *)
Lemma push_children cs q n : fst q + snd q <= n -> forall st, in_rows n st ->
  in_rows n (fold_left (fun st c => push st c q) cs st) /\
  forall j x, N j (fold_left (fun st c => push st c q) cs st) x =
    N j st x + (if hit j q then count_occ ideq cs x else 0).
Proof.
  intros Hq. induction cs as [|c cs IH]; simpl; intros st Hst.
  - split; auto. intros. destruct (hit j q); lia.
  - destruct (IH (push st c q)) as [Ha Hb]; [now apply in_rows_push|]. split; auto.
    intros j x. rewrite Hb, N_push. destruct (hit j q); [|rewrite andb_false_r; lia]. rewrite andb_true_r.
    destruct (ideq c x) as [->|Hn]; [rewrite Nat.eqb_refl; lia|].
    destruct (x =? c) eqn:E; [apply Nat.eqb_eq in E; congruence|lia].
Qed.

Lemma prod_steps cs n : forall (l : list request) st, in_rows n st -> (forall q, In q l -> fst q + snd q <= n) ->
  in_rows n (fold_left (fun st q => fold_left (fun st c => push st c q) cs st) l st) /\
  forall j x, N j (fold_left (fun st q => fold_left (fun st c => push st c q) cs st) l st) x =
    N j st x + length (filter (hit j) l) * count_occ ideq cs x.
Proof.
  induction l as [|q l IH]; simpl; intros st Hst Hl; [split; [auto|lia]|].
  destruct (push_children cs q n (Hl q (or_introl eq_refl)) st Hst) as [H1 H2].
  destruct (IH _ H1) as [Ha Hb]; [auto|]. split; auto.
  intros j x. rewrite Hb, H2. destruct (hit j q); simpl; lia.
Qed.

Lemma prod_sample_spec g u n st : in_rows n st ->
  in_rows n (prod_sample g u st) /\
  forall j x, N j (prod_sample g u st) x = N j st x + N j st u * count_occ ideq (subcircuits g u) x.
Proof. intros H. apply prod_steps; eauto. Qed.
End Sampling.
