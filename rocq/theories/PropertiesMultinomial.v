(** * PropertiesMultinomial: C34 and C35 *)
From Coq Require Import List Arith Bool Lia ZArith Reals Lra.
From Verif Require Import Num Graph GraphFacts Spec SpecFacts Circuit EvalFacts VarFacts Interval Dist DistFacts TreeProb PropertiesProb
  Support SupportFacts ModeFacts PropertiesSupport Layout LayoutFacts Multinomial MultinomialFacts.
Import ListNotations.
Local Open Scope R_scope.

(** A multinomial distribution: distinct variables, distinct elements in every domain, real non-negative entries that sum to one. *)
Record normalised_table (dom : nat -> list Z) (m : multi) (f : list nat -> R) : Prop := {
  nt_vars : NoDup (m_vars m);
  nt_dom : Forall (fun v => NoDup (dom v)) (m_vars m);
  nt_at : forall s, valid dom (m_vars m) s -> m_at m s = Fin (f s) /\ 0 <= f s;
  nt_sum : sum_over (valid dom (m_vars m)) f 1 }.

Lemma nt_states dom m f : normalised_table dom m f ->
  forall s, In s (states (shape dom (m_vars m))) -> m_at m s = Fin (f s) /\ 0 <= f s.
Proof. intros H s Hs. apply (nt_at _ _ _ H). now apply valid_states. Qed.

Lemma nt_fin dom m f : normalised_table dom m f -> forall s, In s (states (shape dom (m_vars m))) -> m_at m s = Fin (f s).
Proof. intros H s Hs. now apply (nt_states _ _ _ H). Qed.

Lemma nt_total dom m f : normalised_table dom m f -> Rsum (map f (states (shape dom (m_vars m)))) = 1.
Proof. intros H. eapply sum_over_det; [apply sum_over_states|apply (nt_sum _ _ _ H)]. Qed.

Lemma nt_inhabited dom m f : normalised_table dom m f -> exists s, valid dom (m_vars m) s.
Proof.
  intros H. assert (T := nt_total _ _ _ H). destruct (states (shape dom (m_vars m))) as [|s l] eqn:E; [simpl in T; lra|].
  exists s. apply valid_states. rewrite E. now left.
Qed.

(** ** C34 *)

(** [full] extends the assignment [s] of [vs]. *)
Definition extends (vars full vs s : list nat) : Prop := forall v, In v vs -> value vars full v = value vs s v.

Definition marginal_table (dom : nat -> list Z) (vars : list nat) (f : list nat -> R) (vs : list nat) (h : list nat -> num) : Prop :=
  forall s, valid dom vs s -> exists r, h s = Fin r /\ sum_over (fun full => valid dom vars full /\ extends vars full vs s) f r.

Definition C34_full : Prop := forall dom m f vs, normalised_table dom m f -> NoDup vs -> incl vs (m_vars m) ->
  exists m', m_marginal dom vs m = Some m' /\ m_vars m' = vs /\ marginal_table dom (m_vars m) f vs (m_at m').

(** What the array holds for any order of the requested variables: the axes stay in the order of the joint, so the entries
    are those of the marginal over the requested variables in THAT order; the call raises if the shapes differ. *)
Theorem C34_axes dom m f vs : normalised_table dom m f ->
  (shape dom vs <> shape dom (filter (fun v => mem v vs) (m_vars m)) -> m_marginal dom vs m = None) /\
  (shape dom vs = shape dom (filter (fun v => mem v vs) (m_vars m)) ->
   exists m', m_marginal dom vs m = Some m' /\ m_vars m' = vs /\
     marginal_table dom (m_vars m) f (filter (fun v => mem v vs) (m_vars m)) (m_at m')).
Proof.
  intros H. split.
  - intros Hn. unfold m_marginal. destruct (leqb _ _) eqn:E; auto. apply leqb_eq in E. tauto.
  - intros Hs. assert (T := nt_total _ _ _ H).
    destruct (marginal_R dom m f (nt_fin _ _ _ H) vs Hs) as (m' & E & Ev & Ha); [rewrite T; lra|].
    exists m'. split; auto. split; auto. intros s Hv. rewrite Ha; [|now rewrite Hs; apply valid_states].
    rewrite T. eexists. split; [reflexivity|].
    exists (filter (fun full => leqb (kept vs (m_vars m) full) s) (states (shape dom (m_vars m)))).
    split; [apply NoDup_filter, states_NoDup|]. split; [|lra].
    intros full. rewrite filter_In, leqb_eq, valid_states. unfold extends. split; intros [H1 H2]; split; auto;
      apply (kept_agree dom vs (m_vars m) full s); auto; try apply (nt_vars _ _ _ H); apply states_In; now apply valid_states.
Qed.
Print Assumptions C34_axes.

(** Variables given in the order of the joint.  Missing: any other order (refuted below). *)
Theorem C34_marginal_partial dom m f vs keep : normalised_table dom m f -> vs = filter keep (m_vars m) ->
  exists m', m_marginal dom vs m = Some m' /\ m_vars m' = vs /\ marginal_table dom (m_vars m) f vs (m_at m').
Proof.
  intros H Evs. assert (E : filter (fun v => mem v vs) (m_vars m) = vs).
  { transitivity (filter keep (m_vars m)); [|auto]. apply filter_ext_in. intros v Hv. destruct (keep v) eqn:K.
    - apply mem_In. rewrite Evs. apply filter_In. auto.
    - apply not_true_is_false. intros Hm. apply mem_In in Hm. rewrite Evs in Hm. apply filter_In in Hm. destruct Hm. congruence. }
  destruct (C34_axes dom m f vs H) as [_ H2]. rewrite E in H2. apply H2. reflexivity.
Qed.
Print Assumptions C34_marginal_partial.

(** A 2x2 table that is not symmetric. *)
Definition bits (v : nat) : list Z := [0%Z; 1%Z].
Definition skew_f (s : list nat) : R :=
  match s with [O; O] => 1/8 | [O; S O] => 3/8 | [S O; O] => 1/2 | _ => 0 end.
Definition skew : multi := mkMulti [0; 1]%nat (fun s => Fin (skew_f s)).

Lemma skew_table : normalised_table bits skew skew_f.
Proof.
  constructor.
  - repeat constructor; simpl; intuition lia.
  - repeat constructor; simpl; intuition lia.
  - intros s _. split; [reflexivity|]. unfold skew_f. repeat (destruct s as [|[|[|?]] s]; try lra).
  - eexists. split; [apply states_NoDup|]. split; [intros s; apply valid_states|]. cbn. lra.
Qed.

Example C34_in_order : exists m', m_marginal bits [1]%nat skew = Some m' /\ m_vars m' = [1]%nat /\
  marginal_table bits [0; 1]%nat skew_f [1]%nat (m_at m').
Proof. apply (C34_marginal_partial bits skew skew_f [1]%nat (fun v => Nat.eqb v 1) skew_table). reflexivity. Qed.

(** The swapped order keeps the axes but swaps their names. *)
Theorem C34_order_refuted : ~ C34_full.
Proof.
  intros H. destruct (H bits skew skew_f [1; 0]%nat skew_table) as (m' & E & Ev & Hm).
  - repeat constructor; simpl; intuition lia.
  - intros v Hv. simpl in *. tauto.
  - destruct (proj2 (C34_axes bits skew skew_f [1; 0]%nat skew_table) eq_refl) as (m2 & E2 & _ & H2).
    rewrite E in E2. inversion E2; subst m2.
    assert (Hv : valid bits [1; 0]%nat [0; 1]%nat) by (repeat constructor).
    destruct (Hm [0; 1]%nat Hv) as (r & Er & Hr).
    destruct (H2 [0; 1]%nat) as (r2 & Er2 & Hr2); [repeat constructor|].
    assert (r = 1/2) as ->.
    { eapply sum_over_det; [exact Hr|]. exists [[1; 0]%nat]. split; [repeat constructor; auto|]. split; [|simpl; lra].
      intros s. split.
      - intros [<-|[]]. split; [repeat constructor|]. intros v [<-|[<-|[]]]; reflexivity.
      - intros [Hs Hx]. inversion Hs as [|? i ? s' Hi Hs']; subst. inversion Hs' as [|? j ? s'' Hj Hs'']; subst. inversion Hs''; subst.
        assert (X0 := Hx 0%nat). assert (X1 := Hx 1%nat). simpl in X0, X1.
        specialize (X0 ltac:(auto)). specialize (X1 ltac:(auto)). left. congruence. }
    assert (r2 = 3/8) as ->.
    { eapply sum_over_det; [exact Hr2|]. exists [[0; 1]%nat]. split; [repeat constructor; auto|]. split; [|simpl; lra].
      intros s. split.
      - intros [<-|[]]. split; [repeat constructor|]. intros v [<-|[<-|[]]]; reflexivity.
      - intros [Hs Hx]. inversion Hs as [|? i ? s' Hi Hs']; subst. inversion Hs' as [|? j ? s'' Hj Hs'']; subst. inversion Hs''; subst.
        assert (X0 := Hx 0%nat). assert (X1 := Hx 1%nat). simpl in X0, X1.
        specialize (X0 ltac:(auto)). specialize (X1 ltac:(auto)). left. congruence. }
    rewrite Er in Er2. inversion Er2. lra.
Qed.
Print Assumptions C34_order_refuted.

(** With domains of different sizes the swapped order raises instead. *)
Definition sizes (v : nat) : list Z := match v with O => [0%Z; 1%Z] | _ => [0%Z; 1%Z; 2%Z] end.
Definition flat_f (s : list nat) : R := 1/6.
Definition flat : multi := mkMulti [0; 1]%nat (fun s => Fin (flat_f s)).

Lemma flat_table : normalised_table sizes flat flat_f.
Proof.
  constructor.
  - repeat constructor; simpl; intuition lia.
  - repeat constructor; simpl; intuition lia.
  - intros s _. split; [reflexivity|]. unfold flat_f. lra.
  - eexists. split; [apply states_NoDup|]. split; [intros s; apply valid_states|]. cbn. unfold flat_f. lra.
Qed.

Theorem C34_raises_refuted : ~ C34_full.
Proof.
  intros H. destruct (H sizes flat flat_f [1; 0]%nat flat_table) as (m' & E & _).
  - repeat constructor; simpl; intuition lia.
  - intros v Hv. simpl in *. tauto.
  - rewrite (proj1 (C34_axes sizes flat flat_f [1; 0]%nat flat_table)) in E; discriminate.
Qed.
Print Assumptions C34_raises_refuted.

(** ** C35, conditional *)

(** The state lies in the union of the simple events. *)
Definition in_union (dom : nat -> list Z) (vars : list nat) (es : list sevent) (s : list nat) : Prop :=
  exists e, In e es /\ sat dom e vars s.

(** Bayes' rule for a union of pairwise disjoint simple events over the domains. *)
Theorem C35_conditional dom m f es P : normalised_table dom m f ->
  Forall (fun e => Forall (set_over dom e) (m_vars m)) es -> apart dom (m_vars m) es ->
  sum_over (in_union dom (m_vars m) es) f P ->
  m_probability dom es m = Some (Fin P) /\
  (P = 0 -> m_log_conditional dom es m = Some (None, NInf)) /\
  (P <> 0 -> exists m', m_log_conditional dom es m = Some (Some m', nlog (Fin P)) /\ m_vars m' = m_vars m /\
     forall s, valid dom (m_vars m) s ->
       (in_union dom (m_vars m) es s -> m_at m' s = Fin (f s / P)) /\
       (~ in_union dom (m_vars m) es s -> m_at m' s = Fin 0)).
Proof.
  intros H He Ha HP.
  destruct (conditional_R dom m f (nt_fin _ _ _ H) es (nt_dom _ _ _ H) He Ha) as (idxs & Hh & Hpr & Hc & Hat).
  set (Q := Rsum (map f (filter (fun s => existsb (fun idx => in_ix idx s) idxs) (states (shape dom (m_vars m)))))) in *.
  assert (Q = P) as EQ.
  { eapply sum_over_det; [|exact HP]. eexists. split; [|split; [|reflexivity]]; [apply NoDup_filter, states_NoDup|].
    intros s. rewrite filter_In, Hh. split; [tauto|]. intros Hs. split; auto. apply valid_states. destruct Hs as (e & _ & Hs).
    eapply sat_valid; eauto. }
  rewrite EQ in *. clear Q EQ. split; auto. split.
  - intros ->. rewrite Hc. destruct (Req_EM_T 0 0); [reflexivity|congruence].
  - intros HP0. rewrite Hc. destruct (Req_EM_T P 0) as [|_]; [tauto|]. eexists. split; [reflexivity|]. split; [reflexivity|].
    intros s Hs. rewrite (Hat s Hs HP0). destruct (existsb (fun idx => in_ix idx s) idxs) eqn:E.
    + split; [auto|]. intros Hn. destruct Hn. now apply Hh.
    + split; [|intros _; f_equal; unfold Rdiv; ring]. intros Hin. apply Hh in Hin. congruence.
Qed.
Print Assumptions C35_conditional.

Definition low : sevent := fun v => match v with O => ESym [0%Z] | _ => ESym [0%Z; 1%Z] end.
Definition corner : sevent := fun v => match v with O => ESym [1%Z] | _ => ESym [0%Z] end.

Example C35_conditional_case : exists m', m_log_conditional bits [low; corner] skew = Some (Some m', nlog (Fin 1)) /\ m_at m' [1; 0]%nat = Fin (1 / 2 / 1).
Proof.
  destruct (C35_conditional bits skew skew_f [low; corner] 1 skew_table) as (_ & _ & H).
  - repeat constructor; cbn; (eexists; split; [reflexivity|]; split; [repeat constructor; simpl; intuition lia|intros x Hx; simpl in *; tauto]).
  - constructor; [|repeat constructor]. constructor; auto. intros s [H1 H2]. inversion H1 as [|? i ? ? (k & E1 & E2) _]; subst.
    inversion H2 as [|? j ? ? (k' & E3 & E4) _]; subst. simpl in *. destruct E2 as [<-|[]], E4 as [<-|[]]. congruence.
  - exists [[0; 0]; [0; 1]; [1; 0]]%nat. split; [repeat constructor; simpl; intuition discriminate|]. split; [|simpl; lra].
    assert (forall i x, nth_error (bits 0) i = Some x -> (i = 0 /\ x = 0%Z \/ i = 1 /\ x = 1%Z)%nat) as Hb.
    { intros [|[|i]] x E; simpl in E; [left|right|destruct i; discriminate]; inversion E; auto. }
    intros s. split.
    + intros [<-|[<-|[<-|[]]]].
      * exists low. split; [now left|]. repeat constructor; cbn; eauto 10.
      * exists low. split; [now left|]. repeat constructor; cbn; eauto 10.
      * exists corner. split; [now right; left|]. repeat constructor; cbn; eauto 10.
    + intros (e & He & Hs). inversion Hs as [|? i ? s' (k & E1 & E2) Hs']; subst.
      inversion Hs' as [|? j ? s'' (k' & E3 & E4) Hs'']; subst. inversion Hs''; subst.
      apply Hb in E1, E3. simpl in *. destruct He as [<-|[<-|[]]]; simpl in *; intuition subst; auto; try discriminate.
  - destruct H as (m' & E & _ & Ha); [lra|]. exists m'. split; auto. apply Ha; [repeat constructor|].
    exists corner. split; [now right; left|]. repeat constructor; cbn; eauto 10.
Qed.

(** ** C35, mode *)

(** The simple event that consists of one state: the element of each variable. *)
Inductive names (dom : nat -> list Z) : list nat -> list nat -> list (nat * Z) -> Prop :=
| names_nil : names dom [] [] []
| names_cons v i k vars s b : nth_error (dom v) i = Some k -> names dom vars s b -> names dom (v :: vars) (i :: s) ((v, k) :: b).

Lemma names_map dom vars s : valid dom vars s ->
  names dom vars s (map (fun vi => (fst vi, nth (snd vi) (dom (fst vi)) 0%Z)) (combine vars s)).
Proof. induction 1 as [|v i vars s Hi H IH]; simpl; constructor; auto. now apply nth_error_nth'. Qed.

Lemma names_det dom vars s b b' : names dom vars s b -> names dom vars s b' -> b = b'.
Proof. intros H. revert b'. induction H; intros b' H'; inversion H'; subst; auto. f_equal; [congruence|auto]. Qed.

Theorem C35_mode dom m f : normalised_table dom m f ->
  exists mx boxes, m_log_mode dom m = Some (boxes, nlog (Fin mx)) /\
    (exists s, valid dom (m_vars m) s /\ f s = mx) /\ (forall s, valid dom (m_vars m) s -> f s <= mx) /\
    (forall s b, names dom (m_vars m) s b -> valid dom (m_vars m) s -> f s = mx -> In b boxes) /\
    (forall b, In b boxes -> exists s, names dom (m_vars m) s b /\ valid dom (m_vars m) s /\ f s = mx).
Proof.
  intros H. destruct (mode_R dom m f (nt_fin _ _ _ H) (nt_inhabited _ _ _ H)) as (mx & boxes & E & H1 & H2 & H3).
  exists mx, boxes. split; [exact E|]. split; [exact H1|]. split; [exact H2|]. split.
  - intros s b Hb Hs Es. apply H3. exists s. split; auto. split; auto. eapply names_det; eauto. now apply names_map.
  - intros b Hb. apply H3 in Hb. destruct Hb as (s & Hs & Es & ->). exists s. split; [now apply names_map|auto].
Qed.
Print Assumptions C35_mode.

Example C35_mode_case : exists boxes, m_log_mode bits skew = Some (boxes, nlog (Fin (1/2))) /\ In [(0%nat, 1%Z); (1%nat, 0%Z)] boxes.
Proof.
  destruct (C35_mode bits skew skew_f skew_table) as (mx & boxes & E & (s & Hs & Es) & H2 & H3 & _).
  assert (mx = 1/2) as ->.
  { assert (A := H2 [1; 0]%nat ltac:(repeat constructor)). simpl in A.
    apply valid_states in Hs. simpl in Hs. destruct Hs as [<-|[<-|[<-|[<-|[]]]]]; simpl in Es; lra. }
  exists boxes. split; [exact E|]. apply (H3 [1; 0]%nat); [repeat constructor|repeat constructor|reflexivity].
Qed.

(** ** C35, circuit conversion *)
Lemma multinomial_layered dom m f : normalised_table dom m f -> layered_circuit (m_as_probabilistic_circuit dom m) (m_circuit_tree dom m).
Proof.
  intros H. assert (T := layout_tree (m_circuit_tree dom m)). split; [apply T|]. split; [apply layout_leaves_terminal|].
  exists 0%nat. split; [now apply tree_root|]. split; [now apply tree_graded|]. apply layout_unfolds.
  apply circuit_nonempty. eapply nt_inhabited; eauto.
Qed.

(** A point that puts every variable at its index in [s]. *)
Definition point_of (vars s : list nat) (x : nat -> R) : Prop := forall v i, value vars s v = Some i -> x v = INR i.

Lemma circuit_lik dom m f x : normalised_table dom m f -> lik (m_circuit_tree dom m) x =
  Fin (Rsum (map f (filter (fun s => forallb (fun vi => Reqb (x (fst vi)) (INR (snd vi))) (combine (m_vars m) s)) (states (shape dom (m_vars m)))))).
Proof.
  intros H. unfold lik. rewrite (semN_ext _ (fun d => Fin (ind (Reqb (x (dvar d)) (IZR (hot d)))))).
  - rewrite semN_semR by (eapply circuit_weights; apply (nt_states _ _ _ H)). f_equal.
    rewrite (circuit_semR dom m f (nt_states _ _ _ H) (fun v k => Reqb (x v) (IZR k))). f_equal. f_equal.
    apply filter_ext. intros s. generalize (combine (m_vars m) s). intros c. induction c as [|vi l IH]; simpl; auto. now rewrite IH, INR_IZR_INZ.
  - eapply all_leaves_impl; [|apply circuit_hot]. intros d (v & i & ->). cbn [dvar hot one_hot ll1 fold_left fst snd].
    unfold ind. destruct (Reqb (x v) (IZR (Z.of_nat i))); auto. rewrite nexp_nlog; auto. simpl. lra.
Qed.

Lemma forallb_value vars s x : NoDup vars -> length s = length vars ->
  forallb (fun vi => Reqb (x (fst vi)) (INR (snd vi))) (combine vars s) = true <-> point_of vars s x.
Proof.
  intros Hd. revert s. unfold point_of. induction Hd as [|w vars Hw Hd IH]; intros [|i s] E; simpl in E |- *; try discriminate.
  - split; [intros _ v i; discriminate|reflexivity].
  - rewrite andb_true_iff. rewrite (IH s ltac:(lia)). destruct (Reqb_spec (x w) (INR i)) as [Ex|Ex].
    + split; [intros [_ H]|intros H; split; [reflexivity|]]; intros v j.
      * destruct (Nat.eqb_spec w v); [intros [= <-]; now subst|]. apply H.
      * intros Hj. apply H. destruct (Nat.eqb_spec w v); [|exact Hj]. subst. rewrite value_absent in Hj by auto. discriminate.
    + split; [intros [? _]; discriminate|]. intros H. exfalso. apply Ex. apply H. now rewrite Nat.eqb_refl.
Qed.

Lemma point_det vars s s' x : NoDup vars -> length s = length vars -> length s' = length vars ->
  point_of vars s x -> point_of vars s' x -> s = s'.
Proof.
  intros Hd E E' H H'. apply (value_inj vars); auto. intros v Hv.
  assert (Hsome : forall t, length t = length vars -> exists i, value vars t v = Some i).
  { clear -Hv. induction vars as [|w vars IH]; [destruct Hv|]. intros [|i t] E; simpl in E; [discriminate|]. simpl.
    destruct (Nat.eqb_spec w v); eauto. destruct Hv as [->|Hv]; [tauto|]. apply IH; auto. }
  destruct (Hsome s E) as [i Ei], (Hsome s' E') as [j Ej]. rewrite Ei, Ej. f_equal. apply INR_eq.
  rewrite <- (H v i Ei). now apply H'.
Qed.

(** At index points, which is how both classes read rows of data, the circuit has the likelihood of the table; elsewhere 0. *)
Theorem C35_circuit_likelihood dom m f x : normalised_table dom m f ->
  (forall s, valid dom (m_vars m) s -> point_of (m_vars m) s x ->
     m_log_likelihood dom m s = Some (nlog (Fin (f s))) /\ likelihood_at (m_as_probabilistic_circuit dom m) x (Fin (f s))) /\
  ((forall s, valid dom (m_vars m) s -> ~ point_of (m_vars m) s x) -> likelihood_at (m_as_probabilistic_circuit dom m) x (Fin 0)).
Proof.
  intros H. assert (L := likelihood_at_lik _ _ x (multinomial_layered dom m f H) (circuit_smooth dom m)).
  rewrite (circuit_lik dom m f x H) in L. assert (Hlen : forall s, valid dom (m_vars m) s -> length s = length (m_vars m)).
  { intros s Hs. apply (valid_length dom). apply states_In. now apply valid_states. }
  split.
  - intros s Hs Hx. split.
    + unfold m_log_likelihood. assert (existsb (leqb s) (states (shape dom (m_vars m))) = true) as ->.
      { apply existsb_exists. exists s. split; [now apply valid_states|now apply leqb_eq]. }
      now rewrite (proj1 (nt_at _ _ _ H s Hs)).
    + replace (f s) with (Rsum (map f [s])) by (simpl; lra).
      erewrite Rsum_same_members; [exact L| |apply NoDup_filter, states_NoDup|]; [repeat constructor; auto|].
      intros s'. rewrite filter_In. split.
      * intros [<-|[]]. split; [now apply valid_states|]. apply forallb_value; auto. apply (nt_vars _ _ _ H).
      * intros [H1 H2]. apply valid_states in H1. apply forallb_value in H2; auto using (nt_vars _ _ _ H). left.
        eapply point_det; eauto using (nt_vars _ _ _ H).
  - intros Hn. replace (filter _ _) with (@nil (list nat)) in L; [exact L|]. symmetry.
    destruct (filter _ _) as [|s l] eqn:E; auto. exfalso.
    assert (Hin : In s (s :: l)) by now left. rewrite <- E in Hin. apply filter_In in Hin. destruct Hin as [H1 H2].
    apply valid_states in H1. apply forallb_value in H2; auto using (nt_vars _ _ _ H). eapply Hn; eauto.
Qed.
Print Assumptions C35_circuit_likelihood.

(** Same probability for every simple event. *)
Definition same_probability (dom : nat -> list Z) (m : multi) : Prop := forall e,
  Forall (set_over dom e) (m_vars m) ->
  exists p, m_probability dom [e] m = Some (Fin p) /\ answers (m_as_probabilistic_circuit dom m) e p.

Definition C35_full : Prop := forall dom m f, normalised_table dom m f -> same_probability dom m.

(** Domains whose elements are their own indices.  Missing: other domains (refuted below); conditional, mode and likelihood are
    proved without this restriction. *)
Theorem C35_circuit_probability_partial dom m f : normalised_table dom m f ->
  Forall (fun v => dom v = map Z.of_nat (seq 0 (length (dom v)))) (m_vars m) -> same_probability dom m.
Proof.
  intros H Hdom e He.
  set (b := fun v k => in_evset (e v) (IZR k)).
  assert (Hsat : forall s, valid dom (m_vars m) s ->
    (forallb (fun vi => b (fst vi) (Z.of_nat (snd vi))) (combine (m_vars m) s) = true <-> sat dom e (m_vars m) s)).
  { clear -Hdom He. unfold valid, sat. revert Hdom He. generalize (m_vars m). intros vars Hdom He s Hs.
    induction Hs as [|v i vars s Hi Hs IH]; simpl; [split; auto|].
    inversion Hdom as [|? ? Ed Hd]; subst. inversion He as [|? ? (l & El & _) He']; subst.
    rewrite andb_true_iff, (IH Hd He'). unfold b. rewrite El, in_esym.
    assert (En : nth_error (dom v) i = Some (Z.of_nat i)).
    { rewrite Ed. apply map_nth_error. rewrite (nth_error_nth' _ 0%nat) by now rewrite seq_length. now rewrite seq_nth. }
    rewrite existsb_exists. split.
    - intros [(k & Hk & E) H]. apply Z.eqb_eq in E. constructor; auto. rewrite El. exists (Z.of_nat i). subst. auto.
    - intros H. inversion H as [|? ? ? ? (k & E1 & E2) H']; subst. split; auto. rewrite El in E2. exists k. split; auto.
      apply Z.eqb_eq. congruence. }
  set (P := Rsum (map f (filter (fun s => forallb (fun vi => b (fst vi) (Z.of_nat (snd vi))) (combine (m_vars m) s)) (states (shape dom (m_vars m)))))).
  exists P. split.
  - apply (C35_conditional dom m f [e] P); auto; [repeat constructor|].
    eexists. split; [|split; [|reflexivity]]; [apply NoDup_filter, states_NoDup|].
    intros s. rewrite filter_In. split.
    + intros [H1 H2]. exists e. split; [now left|]. apply Hsat; auto. now apply valid_states.
    + intros (e' & [<-|[]] & Hs). assert (Hv := sat_valid _ _ _ _ Hs). split; [now apply valid_states|now apply Hsat].
  - assert (A := answers_semR _ _ e (multinomial_layered dom m f H)). 
    rewrite (semR_ext _ (fun d => ind (b (dvar d) (hot d)))) in A.
    + rewrite (circuit_semR dom m f (nt_states _ _ _ H) b) in A. apply A.
      * eapply circuit_weights. apply (nt_states _ _ _ H).
      * eapply all_leaves_impl; [|apply circuit_hot]. intros d (v & i & ->). simpl. repeat split; simpl; try lra; repeat constructor; simpl; auto. lra.
      * unfold event_ok. eapply all_leaves_impl; [|apply (all_leaves_and _ _ _ (circuit_hot dom m) (circuit_leaves_of dom m))].
        intros d [(v & i & ->) Hv]. cbn [dvar one_hot] in Hv |- *. rewrite Forall_forall in He. destruct (He v Hv) as (l & -> & Hl & _). exact Hl.
    + eapply all_leaves_impl; [|apply circuit_hot]. intros d (v & i & ->). cbn [probR one_hot dvar hot map fst snd]. unfold b. cbn [Rsum fold_right].
      destruct (e v); lra.
Qed.
Print Assumptions C35_circuit_probability_partial.

Example C35_bits : same_probability bits skew.
Proof. apply (C35_circuit_probability_partial bits skew skew_f skew_table). repeat constructor. Qed.

(** One variable whose elements hash to 5 and 7: the leaves of the circuit have the keys 0 and 1, which are no elements. *)
Definition odd_names (v : nat) : list Z := [5%Z; 7%Z].
Definition coin_f (s : list nat) : R := match s with [0%nat] => 1/4 | _ => 3/4 end.
Definition coin : multi := mkMulti [0%nat] (fun s => Fin (coin_f s)).

Lemma coin_table : normalised_table odd_names coin coin_f.
Proof.
  constructor.
  - repeat constructor; simpl; intuition lia.
  - repeat constructor; simpl; intuition lia.
  - intros s _. split; [reflexivity|]. unfold coin_f. repeat (destruct s as [|[|?] s]; try lra).
  - eexists. split; [apply states_NoDup|]. split; [intros s; apply valid_states|]. cbn. lra.
Qed.

Theorem C35_circuit_refuted : ~ C35_full.
Proof.
  intros H. destruct (H odd_names coin coin_f coin_table (fun _ => ESym [5%Z])) as (p & Hp & Ha).
  - repeat constructor. exists [5%Z]. split; auto. split; [repeat constructor; auto|]. intros k Hk. simpl in *. tauto.
  - assert (p = 1/4) as ->. { cbn in Hp. inversion Hp. lra. }
    assert (A := answers_semR _ _ (fun _ => ESym [5%Z]) (multinomial_layered _ _ _ coin_table)).
    assert (B : answers (m_as_probabilistic_circuit odd_names coin) (fun _ => ESym [5%Z])
                  (semR (fun d => probR d (ESym [5%Z])) (m_circuit_tree odd_names coin))).
    { apply A.
      - eapply circuit_weights. apply (nt_states _ _ _ coin_table).
      - eapply all_leaves_impl; [|apply circuit_hot]. intros d (v & i & ->). simpl. repeat split; simpl; try lra; repeat constructor; simpl; auto. lra.
      - unfold event_ok. eapply all_leaves_impl; [|apply circuit_hot]. intros d (v & i & ->). simpl. repeat constructor; auto. }
    rewrite (semR_ext _ (fun d => ind ((fun _ k => Z.eqb k 5) (dvar d) (hot d)))) in B.
    + rewrite (circuit_semR odd_names coin coin_f (nt_states _ _ _ coin_table) (fun _ k => Z.eqb k 5)) in B.
      match type of B with answers _ _ ?r => replace r with 0 in B by reflexivity end.
      destruct (Ha empty_store) as [st E], (B empty_store) as [st' E']. rewrite E in E'. inversion E'. lra.
    + eapply all_leaves_impl; [|apply circuit_hot]. intros d (v & i & ->). cbn [probR one_hot dvar hot map fst snd]. cbn [Rsum fold_right].
      rewrite in_esym. cbn [existsb]. rewrite orb_false_r. lra.
Qed.
Print Assumptions C35_circuit_refuted.
