(** * Interval: the intervals of the random_events package

    /repo uses random_events.interval (SimpleInterval, Interval, Bound, singleton, reals), an external dependency.
    Modelled by its documented meaning: a SimpleInterval has a lower and an upper bound, possibly infinite, each open or
    closed; an Interval is a list [simple_sets] of SimpleIntervals, kept non-empty and pairwise disjoint by the package. *)
From Coq Require Import List Arith Bool Lia Reals Lra.
From Verif Require Import Num.
Import ListNotations.
Local Open Scope R_scope.

Definition Rleb (x y : R) : bool := if Rle_dec x y then true else false.
Definition Rltb (x y : R) : bool := if Rlt_dec x y then true else false.
Definition Reqb (x y : R) : bool := if Req_EM_T x y then true else false.

Lemma Rleb_spec x y : reflect (x <= y) (Rleb x y).
Proof. unfold Rleb. destruct (Rle_dec x y); constructor; auto. Qed.
Lemma Rltb_spec x y : reflect (x < y) (Rltb x y).
Proof. unfold Rltb. destruct (Rlt_dec x y); constructor; auto. Qed.
Lemma Reqb_spec x y : reflect (x = y) (Reqb x y).
Proof. unfold Reqb. destruct (Req_EM_T x y); constructor; auto. Qed.

(** SimpleInterval(lower, upper, left, right); [lc]/[rc] tell whether the bound is closed. *)
Record sint : Type := mkSint { lo : num; hi : num; lc : bool; rc : bool }.

Definition above (i : sint) (x : R) : bool :=
  match lo i with
  | NInf => true
  | Fin a => if lc i then Rleb a x else Rltb a x
  | _ => false
  end.

Definition below (i : sint) (x : R) : bool :=
  match hi i with
  | PInf => true
  | Fin b => if rc i then Rleb x b else Rltb x b
  | _ => false
  end.

(** SimpleInterval.contains. *)
Definition in_sint (i : sint) (x : R) : bool := above i x && below i x.

Definition interval := list sint.

(** [x in interval]. *)
Definition in_interval (A : interval) (x : R) : bool := existsb (fun i => in_sint i x) A.

(** random_events.interval.singleton, closed, open, closed_open, reals. *)
Definition isingleton (x : R) : sint := mkSint (Fin x) (Fin x) true true.
Definition iclosed (a b : R) : sint := mkSint (Fin a) (Fin b) true true.
Definition iopen (a b : R) : sint := mkSint (Fin a) (Fin b) false false.
Definition iclosed_open (a b : R) : sint := mkSint (Fin a) (Fin b) true false.
Definition ireals : sint := mkSint NInf PInf false false.

(** Order of extended numbers. *)
Definition nlt (a b : num) : Prop :=
  match a, b with
  | NInf, Fin _ => True
  | NInf, PInf => True
  | Fin _, PInf => True
  | Fin x, Fin y => x < y
  | _, _ => False
  end.

Definition nle (a b : num) : Prop := a = b \/ nlt a b.

(** SimpleInterval.is_singleton. *)
Definition is_singleton (i : sint) : bool :=
  match lo i, hi i with
  | Fin a, Fin b => Reqb a b && lc i && rc i
  | _, _ => false
  end.

(** A non-empty simple interval: either a proper range or a closed singleton. *)
Definition sint_ok (i : sint) : Prop :=
  lo i <> NaN /\ lo i <> PInf /\ hi i <> NaN /\ hi i <> NInf /\
  (nlt (lo i) (hi i) \/ (exists a, lo i = Fin a /\ hi i = Fin a /\ lc i = true /\ rc i = true)).

(** Pairwise disjoint. *)
Fixpoint disjointed (A : interval) : Prop :=
  match A with
  | [] => True
  | i :: A' => (forall j, In j A' -> forall x, ~ (in_sint i x = true /\ in_sint j x = true)) /\ disjointed A'
  end.

(** What random_events guarantees about an Interval. *)
Definition interval_ok (A : interval) : Prop := Forall sint_ok A /\ disjointed A.

(** SimpleInterval.intersection_with, bound by bound. *)
Definition nmax_lo (i j : sint) : num * bool :=
  match lo i, lo j with
  | NInf, b => (b, lc j)
  | a, NInf => (a, lc i)
  | Fin a, Fin b => if Rltb a b then (Fin b, lc j) else if Rltb b a then (Fin a, lc i) else (Fin a, lc i && lc j)
  | a, _ => (a, lc i)
  end.

Definition nmin_hi (i j : sint) : num * bool :=
  match hi i, hi j with
  | PInf, b => (b, rc j)
  | a, PInf => (a, rc i)
  | Fin a, Fin b => if Rltb a b then (Fin a, rc i) else if Rltb b a then (Fin b, rc j) else (Fin a, rc i && rc j)
  | a, _ => (a, rc i)
  end.

Definition sint_inter (i j : sint) : sint :=
  mkSint (fst (nmax_lo i j)) (fst (nmin_hi i j)) (snd (nmax_lo i j)) (snd (nmin_hi i j)).

(** SimpleInterval.is_empty. *)
Definition sint_empty (i : sint) : bool :=
  match lo i, hi i with
  | Fin a, Fin b => Rltb b a || (Reqb a b && negb (lc i && rc i))
  | _, _ => false
  end.

(** Interval.intersection_with: all non-empty pairwise intersections. *)
Definition interval_inter (A B : interval) : interval :=
  filter (fun i => negb (sint_empty i)) (flat_map (fun i => map (sint_inter i) B) A).

(** ** Facts *)

Ltac rb :=
  repeat match goal with
  | |- context [Rleb ?a ?b] => destruct (Rleb_spec a b)
  | |- context [Rltb ?a ?b] => destruct (Rltb_spec a b)
  | |- context [Reqb ?a ?b] => destruct (Reqb_spec a b)
  | H : context [Rleb ?a ?b] |- _ => destruct (Rleb_spec a b)
  | H : context [Rltb ?a ?b] |- _ => destruct (Rltb_spec a b)
  | H : context [Reqb ?a ?b] |- _ => destruct (Reqb_spec a b)
  end.

Lemma sint_inter_spec i j x : lo i <> NaN -> lo j <> NaN -> hi i <> NaN -> hi j <> NaN ->
  lo i <> PInf -> lo j <> PInf -> hi i <> NInf -> hi j <> NInf ->
  in_sint (sint_inter i j) x = in_sint i x && in_sint j x.
Proof.
  destruct i as [li hi0 lci rci], j as [lj hj lcj rcj]; unfold in_sint, above, below, sint_inter; simpl.
  intros. assert (E1 : match fst (nmax_lo (mkSint li hi0 lci rci) (mkSint lj hj lcj rcj)) with
     NInf => true | Fin a => if snd (nmax_lo (mkSint li hi0 lci rci) (mkSint lj hj lcj rcj)) then Rleb a x else Rltb a x | _ => false end =
     (match li with NInf => true | Fin a => if lci then Rleb a x else Rltb a x | _ => false end &&
     match lj with NInf => true | Fin a => if lcj then Rleb a x else Rltb a x | _ => false end)%bool).
  { unfold nmax_lo; simpl. destruct li as [| |a|], lj as [| |b|]; try congruence; simpl; auto.
    - now rewrite andb_true_r.
    - rb; simpl; destruct lci, lcj; simpl; rb; simpl; auto; lra. }
  assert (E2 : match fst (nmin_hi (mkSint li hi0 lci rci) (mkSint lj hj lcj rcj)) with
     PInf => true | Fin a => if snd (nmin_hi (mkSint li hi0 lci rci) (mkSint lj hj lcj rcj)) then Rleb x a else Rltb x a | _ => false end =
     (match hi0 with PInf => true | Fin a => if rci then Rleb x a else Rltb x a | _ => false end &&
     match hj with PInf => true | Fin a => if rcj then Rleb x a else Rltb x a | _ => false end)%bool).
  { unfold nmin_hi; simpl. destruct hi0 as [| |a|], hj as [| |b|]; try congruence; simpl; auto.
    - rb; simpl; destruct rci, rcj; simpl; rb; simpl; auto; lra.
    - now rewrite andb_true_r. }
  rewrite E1, E2. clear. 
  destruct (match li with NInf => true | Fin a => if lci then Rleb a x else Rltb a x | _ => false end),
   (match lj with NInf => true | Fin a => if lcj then Rleb a x else Rltb a x | _ => false end),
   (match hi0 with PInf => true | Fin a => if rci then Rleb x a else Rltb x a | _ => false end),
   (match hj with PInf => true | Fin a => if rcj then Rleb x a else Rltb x a | _ => false end); reflexivity.
Qed.

Lemma sint_empty_spec i x : sint_empty i = true -> in_sint i x = false.
Proof.
  destruct i as [l h a b]; unfold sint_empty, in_sint, above, below; simpl.
  destruct l as [| |l|], h as [| |h|]; try discriminate. destruct a, b; rb; simpl; auto; try discriminate; try lra.
Qed.

Lemma sint_ok_point i : sint_ok i -> exists x, in_sint i x = true.
Proof.
  destruct i as [l h a b]; unfold sint_ok, in_sint, above, below; simpl. intros [H1 [H2 [H3 [H4 H5]]]].
  destruct H5 as [H5|[x [-> [-> [-> ->]]]]].
  - destruct l as [| |l|], h as [| |h|]; simpl in *; try tauto; try congruence.
    + exists (h - 1). destruct b; rb; simpl; auto; lra.
    + exists 0. reflexivity.
    + exists ((l + h) / 2). destruct a, b; rb; simpl; auto; lra.
    + exists (l + 1). destruct a; rb; simpl; auto; lra.
  - exists x. rb; simpl; auto; lra.
Qed.

Lemma in_interval_inter A B x :
  Forall sint_ok A -> Forall sint_ok B ->
  in_interval (interval_inter A B) x = in_interval A x && in_interval B x.
Proof.
  intros HA HB. apply eq_true_iff_eq. unfold in_interval, interval_inter.
  rewrite andb_true_iff, !existsb_exists. rewrite Forall_forall in HA, HB. split.
  - intros [k [Hk Hx]]. apply filter_In in Hk. destruct Hk as [Hk _]. apply in_flat_map in Hk.
    destruct Hk as [i [Hi Hk]]. apply in_map_iff in Hk. destruct Hk as [j [<- Hj]].
    destruct (HA i Hi) as [? [? [? [? _]]]]. destruct (HB j Hj) as [? [? [? [? _]]]].
    rewrite sint_inter_spec in Hx by auto. apply andb_true_iff in Hx. destruct Hx. split; eauto.
  - intros [[i [Hi Hxi]] [j [Hj Hxj]]]. exists (sint_inter i j).
    assert (Hin : in_sint (sint_inter i j) x = true).
    { destruct (HA i Hi) as [? [? [? [? _]]]]. destruct (HB j Hj) as [? [? [? [? _]]]].
      rewrite sint_inter_spec by auto. now rewrite Hxi, Hxj. }
    split; auto. apply filter_In. split.
    + apply in_flat_map. exists i. split; auto. now apply in_map.
    + apply negb_true_iff. destruct (sint_empty (sint_inter i j)) eqn:E; auto.
      rewrite (sint_empty_spec _ x E) in Hin. discriminate.
Qed.

(** ** Elementary cells *)

(** Increment of a function over a simple interval; [F] is given on extended numbers. *)
Definition delta (F : num -> R) (i : sint) : R := F (hi i) - F (lo i).

Definition measure (F : num -> R) (A : interval) : R := Rsum (map (delta F) A).

(** Consecutive pairs of a list of cut points. *)
Fixpoint cells (a : num) (cs : list num) : list (num * num) :=
  match cs with
  | [] => []
  | b :: cs' => (a, b) :: cells b cs'
  end.

Fixpoint chain (a : num) (cs : list num) : Prop :=
  match cs with
  | [] => True
  | b :: cs' => nlt a b /\ chain b cs'
  end.

(** A point strictly between two cut points. *)
Definition between (p : num * num) : R :=
  match p with
  | (NInf, Fin b) => b - 1
  | (Fin a, Fin b) => (a + b) / 2
  | (Fin a, PInf) => a + 1
  | _ => 0
  end.

Lemma nlt_trans a b c : nlt a b -> nlt b c -> nlt a c.
Proof. destruct a, b, c; simpl; auto; try tauto. lra. Qed.

Lemma nlt_irrefl a : ~ nlt a a.
Proof. destruct a; simpl; auto. lra. Qed.

Lemma chain_lt a cs : chain a cs -> forall c, In c cs -> nlt a c.
Proof.
  revert a. induction cs as [|b cs IH]; simpl; intros a H c Hc; [tauto|].
  destruct H as [H1 H2]. destruct Hc as [<-|Hc]; auto. eapply nlt_trans; eauto.
Qed.

Definition dlt (F : num -> R) (p : num * num) : R := F (snd p) - F (fst p).

(** Is a cell inside a simple interval?  Decided by its sample point when the bounds are cut points. *)
Lemma between_in (i : sint) p : nlt (fst p) (snd p) ->
  (nle (lo i) (fst p) /\ nle (snd p) (hi i) -> in_sint i (between p) = true) /\
  (lo i <> NaN -> hi i <> NaN -> nle (snd p) (lo i) \/ nle (hi i) (fst p) -> in_sint i (between p) = false).
Proof.
  destruct i as [l h a b], p as [c d]; unfold in_sint, above, below, nle; simpl. intros Hcd. split.
  - intros [H1 H2]. apply andb_true_iff. split.
    + destruct l as [| |l|], c as [| |c|], d as [| |d|]; simpl in *; auto; try tauto;
        try (destruct H1 as [H1|H1]; [congruence || injection H1 as H1 |tauto || idtac]); try tauto;
        destruct a; rb; auto; lra.
    + destruct h as [| |h|], c as [| |c|], d as [| |d|]; simpl in *; auto; try tauto;
        try (destruct H2 as [H2|H2]; [congruence || injection H2 as H2 |tauto || idtac]); try tauto;
        destruct b; rb; auto; lra.
  - intros Hl Hh [H|H]; apply andb_false_iff.
    + left. destruct l as [| |l|], c as [| |c|], d as [| |d|]; simpl in *; auto; try tauto; try congruence;
        try (destruct H as [H|H]; [congruence || injection H as H |tauto || idtac]); try tauto;
        destruct a; rb; auto; lra.
    + right. destruct h as [| |h|], c as [| |c|], d as [| |d|]; simpl in *; auto; try tauto; try congruence;
        try (destruct H as [H|H]; [congruence || injection H as H |tauto || idtac]); try tauto;
        destruct b; rb; auto; lra.
Qed.

Definition ind (b : bool) : R := if b then 1 else 0.
Local Arguments between : simpl never.
Local Arguments dlt : simpl never.
Local Arguments Rsum : simpl nomatch.

(** The increment over a simple interval is the sum over the cells inside it. *)
Lemma delta_cells F i : sint_ok i -> forall a cs, chain a cs ->
  In (lo i) (a :: cs) -> In (hi i) (a :: cs) ->
  delta F i = Rsum (map (fun p => ind (in_sint i (between p)) * dlt F p) (cells a cs)).
Proof.
  intros [Hl1 [Hl2 [Hh1 [Hh2 Hok]]]].
  (* cells at or after the upper bound contribute nothing *)
  assert (Hafter : forall cs a, chain a cs -> nle (hi i) a ->
     Rsum (map (fun p => ind (in_sint i (between p)) * dlt F p) (cells a cs)) = 0).
  { induction cs as [|b cs IH]; simpl; intros a Hc Ha; auto. destruct Hc as [Hab Hc].
    rewrite (IH b Hc).
    - destruct (between_in i (a, b) Hab) as [_ H]. rewrite H; simpl; auto; ring.
    - right. destruct Ha as [->|Ha]; auto. eapply nlt_trans; eauto. }
  (* from the lower bound up to the upper bound *)
  assert (Hinside : forall cs a, chain a cs -> nle (lo i) a -> In (hi i) (a :: cs) ->
     Rsum (map (fun p => ind (in_sint i (between p)) * dlt F p) (cells a cs)) = F (hi i) - F a).
  { induction cs as [|b cs IH]; simpl; intros a Hc Ha Hin.
    - destruct Hin as [->|[]]. ring.
    - destruct Hc as [Hab Hc]. destruct Hin as [->|Hin].
      + rewrite Hafter by (auto; now right).
        destruct (between_in i (hi i, b) Hab) as [_ H]. rewrite H; simpl; auto; [ring|]. right. now left.
      + rewrite IH; auto.
        * destruct (between_in i (a, b) Hab) as [H _]. rewrite H; [unfold dlt; simpl; ring|].
          simpl. split; auto. destruct Hin as [->|Hin]; [now left|]. right. eapply chain_lt; eauto.
        * right. destruct Ha as [->|Ha]; auto. eapply nlt_trans; eauto. }
  assert (Hlohi : nle (lo i) (hi i)).
  { destruct Hok as [H|[x [-> [-> _]]]]; [now right|now left]. }
  intros a cs Hc Hlo Hhi. destruct Hlo as [->|Hlo].
    + rewrite Hinside; auto. now left.
    + (* skip the first cells *)
      assert (Hgen : forall cs a, chain a cs -> In (lo i) cs -> In (hi i) (a :: cs) ->
        Rsum (map (fun p => ind (in_sint i (between p)) * dlt F p) (cells a cs)) = F (hi i) - F (lo i)).
      { clear - Hinside Hlohi Hl1 Hh1. induction cs as [|b cs IH]; simpl; intros a Hc Hlo Hhi; [tauto|].
        destruct Hc as [Hab Hc].
        assert (Hhb : In (hi i) (b :: cs)).
        { destruct Hhi as [->|H]; auto. exfalso.
          assert (nlt (hi i) (lo i)).
          { destruct Hlo as [<-|Hlo]; auto. eapply nlt_trans; eauto. eapply chain_lt; eauto. }
          destruct Hlohi as [E|E].
          - rewrite E in H. now apply nlt_irrefl in H.
          - apply (nlt_irrefl (lo i)). eapply nlt_trans; eauto. }
        destruct (between_in i (a, b) Hab) as [_ H]. rewrite H; simpl; auto.
        - destruct Hlo as [->|Hlo].
          + rewrite Hinside; auto; [ring|now left].
          + rewrite IH; auto. ring.
        - left. destruct Hlo as [->|Hlo]; [now left|]. right. eapply chain_lt; eauto. }
      symmetry. apply Hgen; auto.
Qed.

(** Sum over a disjoint list of simple intervals: each cell is counted at most once. *)
Lemma measure_cells F A : interval_ok A -> forall a cs, chain a cs ->
  (forall i, In i A -> In (lo i) (a :: cs) /\ In (hi i) (a :: cs)) ->
  measure F A = Rsum (map (fun p => ind (in_interval A (between p)) * dlt F p) (cells a cs)).
Proof.
  intros [Hok Hd] a cs Hc Hin. unfold measure. induction A as [|i A IH]; simpl.
  - symmetry. apply Rsum_zero. intros. unfold ind. ring.
  - inversion Hok; subst. destruct Hd as [Hd1 Hd2]. rewrite IH; auto.
    + rewrite (delta_cells F i H1 a cs Hc); [|apply Hin; now left|apply Hin; now left].
      rewrite <- Rsum_plus. apply Rsum_ext. intros p _.
      destruct (in_sint i (between p)) eqn:E1; simpl; [|unfold ind; ring].
      destruct (in_interval A (between p)) eqn:E2; simpl; [|unfold ind; ring].
      exfalso. unfold in_interval in E2. apply existsb_exists in E2. destruct E2 as [j [Hj Hx]].
      apply (Hd1 j Hj (between p)). auto.
    + intros j Hj. apply Hin. now right.
Qed.

(** ** Sorting the cut points *)

Fixpoint rinsert (x : R) (l : list R) : list R :=
  match l with
  | [] => [x]
  | y :: l' => if Rltb x y then x :: l else if Reqb x y then l else y :: rinsert x l'
  end.

Definition rsort (l : list R) : list R := fold_right rinsert [] l.

Lemma rinsert_In x l y : In y (rinsert x l) <-> y = x \/ In y l.
Proof.
  induction l as [|z l IH]; simpl; [intuition|]. rb; simpl; subst; try rewrite IH; intuition.
Qed.

Lemma rsort_In l y : In y (rsort l) <-> In y l.
Proof. induction l; simpl; [tauto|]. rewrite rinsert_In, IHl. intuition. Qed.

Fixpoint rchain (a : num) (l : list R) : Prop :=
  match l with
  | [] => True
  | b :: l' => nlt a (Fin b) /\ rchain (Fin b) l'
  end.

Lemma rinsert_chain x l a : nlt a (Fin x) -> rchain a l -> rchain a (rinsert x l).
Proof.
  revert a. induction l as [|y l IH]; simpl; intros a Hx H; [auto|].
  destruct H as [H1 H2]. rb; simpl; auto. split; auto. apply IH; auto. simpl. lra.
Qed.

Lemma rsort_chain l : rchain NInf (rsort l).
Proof. induction l; simpl; auto. apply rinsert_chain; auto. exact I. Qed.

Definition cuts_of (A : interval) : list R :=
  flat_map (fun i => match lo i with Fin a => [a] | _ => [] end ++ match hi i with Fin b => [b] | _ => [] end) A.

(** All finite bounds of some intervals, in order, between the infinities. *)
Definition cut_list (l : list R) : list num := map Fin (rsort l) ++ [PInf].

Lemma rchain_chain l a : a <> NaN -> a <> PInf -> rchain a l -> chain a (map Fin l ++ [PInf]).
Proof.
  revert a. induction l as [|b l IH]; simpl; intros a H1 H2 H.
  - split; auto. destruct a; simpl; congruence || auto.
  - destruct H as [Ha Hb]. split; auto. apply IH; auto; discriminate.
Qed.

Lemma cut_list_chain l : chain NInf (cut_list l).
Proof. apply rchain_chain; try discriminate. apply rsort_chain. Qed.

Lemma cut_list_bounds A l i : incl (cuts_of A) l -> In i A -> sint_ok i ->
  In (lo i) (NInf :: cut_list l) /\ In (hi i) (NInf :: cut_list l).
Proof.
  intros Hl Hi [H1 [H2 [H3 [H4 _]]]]. unfold cut_list. split.
  - destruct (lo i) as [| |a|] eqn:E; try congruence; [now left|]. right. apply in_app_iff. left. apply in_map.
    apply rsort_In, Hl. unfold cuts_of. apply in_flat_map. exists i. split; auto. rewrite E. now left.
  - destruct (hi i) as [| |a|] eqn:E; try congruence.
    + right. apply in_app_iff. left. apply in_map.
      apply rsort_In, Hl. unfold cuts_of. apply in_flat_map. exists i. split; auto. rewrite E. apply in_app_iff. right. now left.
    + right. apply in_app_iff. right. now left.
Qed.

(** The representation of the measure that only mentions membership of points. *)
Lemma measure_by_points F A l : interval_ok A -> incl (cuts_of A) l ->
  measure F A = Rsum (map (fun p => ind (in_interval A (between p)) * dlt F p) (cells NInf (cut_list l))).
Proof.
  intros HA Hl. apply measure_cells; auto.
  - apply cut_list_chain.
  - intros i Hi. eapply cut_list_bounds; eauto. destruct HA as [HA _]. rewrite Forall_forall in HA. auto.
Qed.

(** Two descriptions of the same set of points have the same measure. *)
Theorem measure_pointset F A B : interval_ok A -> interval_ok B ->
  (forall x, in_interval A x = in_interval B x) -> measure F A = measure F B.
Proof.
  intros HA HB Hx.
  rewrite (measure_by_points F A (cuts_of A ++ cuts_of B)), (measure_by_points F B (cuts_of A ++ cuts_of B)); auto.
  - apply Rsum_ext. intros p _. now rewrite Hx.
  - intros x H. apply in_app_iff. now right.
  - intros x H. apply in_app_iff. now left.
Qed.

Definition mono (F : num -> R) : Prop := forall a b, nlt a b -> F a <= F b.

Lemma chain_cells_lt a cs : chain a cs -> forall p, In p (cells a cs) -> nlt (fst p) (snd p).
Proof.
  revert a. induction cs as [|b cs IH]; simpl; intros a H p Hp; [tauto|]. destruct H as [H1 H2].
  destruct Hp as [<-|Hp]; auto. eapply IH; eauto.
Qed.

Theorem measure_mono F A B : mono F -> interval_ok A -> interval_ok B ->
  (forall x, in_interval A x = true -> in_interval B x = true) -> measure F A <= measure F B.
Proof.
  intros HF HA HB Hx.
  rewrite (measure_by_points F A (cuts_of A ++ cuts_of B)), (measure_by_points F B (cuts_of A ++ cuts_of B)); auto.
  - apply Rsum_le. intros p Hp. apply chain_cells_lt in Hp; [|apply cut_list_chain]. apply HF in Hp.
    specialize (Hx (between p)). unfold dlt, ind.
    destruct (in_interval A (between p)), (in_interval B (between p)); try lra;
      assert (false = true) by auto; discriminate.
  - intros x H. apply in_app_iff. now right.
  - intros x H. apply in_app_iff. now left.
Qed.

(** If the points of [C] are split between [A] and [B], the measures add up. *)
Theorem measure_split F A B C : interval_ok A -> interval_ok B -> interval_ok C ->
  (forall x, in_interval C x = in_interval A x || in_interval B x) ->
  (forall x, in_interval A x && in_interval B x = false) ->
  measure F C = measure F A + measure F B.
Proof.
  intros HA HB HC H1 H2.
  set (l := cuts_of A ++ cuts_of B ++ cuts_of C).
  rewrite (measure_by_points F A l), (measure_by_points F B l), (measure_by_points F C l); auto;
    try (intros x H; unfold l; rewrite !in_app_iff; tauto).
  rewrite <- Rsum_plus. apply Rsum_ext. intros p _. specialize (H1 (between p)). specialize (H2 (between p)).
  rewrite H1. destruct (in_interval A (between p)), (in_interval B (between p)); simpl in *; unfold ind; try ring. discriminate.
Qed.

Lemma measure_nonneg F A : mono F -> interval_ok A -> 0 <= measure F A.
Proof.
  intros HF HA. rewrite (measure_by_points F A (cuts_of A)); auto; [|intros x; auto].
  apply Rsum_nonneg. apply Forall_map, Forall_forall. intros p Hp.
  apply chain_cells_lt in Hp; [|apply cut_list_chain]. apply HF in Hp. unfold dlt, ind. destruct (in_interval _ _); lra.
Qed.

Lemma ireals_ok : interval_ok [ireals].
Proof.
  split; [repeat constructor; simpl; try discriminate|]. simpl. split; auto.
Qed.

Lemma in_ireals x : in_interval [ireals] x = true.
Proof. reflexivity. Qed.

Lemma measure_le_total F A : mono F -> interval_ok A -> measure F A <= F PInf - F NInf.
Proof.
  intros HF HA. replace (F PInf - F NInf) with (measure F [ireals]).
  - apply measure_mono; auto. apply ireals_ok.
  - unfold measure, delta. simpl. ring.
Qed.
