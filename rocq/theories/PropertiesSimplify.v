(** * Properties C13 - C16: simplify and normalize *)
From Coq Require Import List Arith Bool Lia Reals Lra Sorting.Sorted.
From Verif Require Import Num Graph GraphFacts Spec SpecFacts Circuit EvalFacts VarFacts PropertiesQuery
  Simplify SimplifyFacts TreeProb TreeLocal DagFacts NormalizeFacts.
Import ListNotations.
Local Open Scope R_scope.

(** ** C13 *)

(** Both circuits have the same variables and give every full row the same log likelihood, whatever earlier queries left
    behind in either of them. *)
Definition same_likelihood {D} (dvars : D -> list nat) (dll : D -> list R -> num) (g g' : graph D) : Prop :=
  forall (x : nat -> R) st st', exists vars ll s s',
    circuit_variables dvars g = Some vars /\ circuit_variables dvars g' = Some vars /\
    log_likelihood dvars dll g (map x vars) st = Some (ll, s) /\
    log_likelihood dvars dll g' (map x vars) st' = Some (ll, s').

Definition same_probability {D} (dprob : D -> option num) (g g' : graph D) : Prop :=
  forall st st', exists p s s',
    probability_of_simple_event dprob g st = Some (p, s) /\ probability_of_simple_event dprob g' st' = Some (p, s').

(** simplify returns and no likelihood query and no probability query (for an event to which the leaves assign
    non-negative numbers) changes its result. *)
Definition simplify_preserves {D} (dead : D -> bool) (dvars : D -> list nat) (g : graph D) (t : pc D) : Prop :=
  exists g', simplify dead g = Some g' /\
    (forall dll, same_likelihood dvars dll g g') /\
    (forall dprob, all_leaves (fun d => exists p, dprob d = Some p /\ nonneg p) t -> same_probability dprob g g').

(** A valid normalised circuit for which the queries are defined (C01): shared units are allowed. *)
Record valid_circuit {D} (dead : D -> bool) (dvars : D -> list nat) (g : graph D) (r : id) (t : pc D) : Prop := {
  vc_wf : wf g; vc_acyclic : acyclic g; vc_leaves : leaves_terminal g; vc_root : root g = Some r; vc_graded : graded g r;
  vc_unfolds : unfolds g r t; vc_norm : normalised t; vc_smooth : smooth dvars t; vc_dec : decomposable dvars t;
  vc_alive : all_leaves (fun d => dead d = false) t }.

Definition C13_full : Prop :=
  forall D (dead : D -> bool) dvars (g : graph D) r t, valid_circuit dead dvars g r t -> simplify_preserves dead dvars g t.

Lemma sorted_same (l : list nat) : forall l', StronglySorted lt l -> StronglySorted lt l' -> (forall x, In x l <-> In x l') -> l = l'.
Proof.
  induction l as [|a l IH]; intros [|b l'] H H' E; auto.
  - exfalso. apply (E b). now left.
  - exfalso. apply (E a). now left.
  - inversion H as [|? ? H1 H2]; subst. inversion H' as [|? ? H1' H2']; subst. rewrite Forall_forall in *.
    assert (a = b) as ->.
    { destruct (proj1 (E a)) as [Ha|Ha]; [now left|auto|]. destruct (proj2 (E b)) as [Hb|Hb]; [now left|auto|].
      apply H2 in Hb. apply H2' in Ha. lia. }
    f_equal. apply IH; auto. intros x. split; intros Hx.
    + destruct (proj1 (E x)) as [->|?]; [now right| |auto]. apply H2 in Hx. lia.
    + destruct (proj2 (E x)) as [->|?]; [now right| |auto]. apply H2' in Hx. lia.
Qed.

(** Two trees with the same variables and values answer alike. *)
Lemma answers_alike {D} (dvars : D -> list nat) (g g' : graph D) r r' t t' : tree_circuit g r t -> tree_circuit g' r' t' ->
  smooth dvars t -> smooth dvars t' -> (forall v, mentions dvars t' v <-> mentions dvars t v) ->
  (forall val, all_leaves (fun d => nonneg (val d)) t -> semN val t' = semN val t) ->
  forall dll, same_likelihood dvars dll g g'.
Proof.
  intros H H' Hs Hs' Hm Hv dll x st st'.
  pose proof (tc_tree _ _ _ H) as T. pose proof (tc_tree _ _ _ H') as T'.
  destruct (log_likelihood_correct dvars dll g r t x st) as [vars [A1 [A2 [A3 [ll [s [A4 A5]]]]]]];
    [apply T|apply H|now apply tree_root|now apply tree_graded|apply H|auto|].
  destruct (log_likelihood_correct dvars dll g' r' t' x st') as [vars' [B1 [B2 [B3 [ll' [s' [B4 B5]]]]]]];
    [apply T'|apply H'|now apply tree_root|now apply tree_graded|apply H'|auto|].
  assert (vars' = vars) as ->.
  { apply sorted_same; auto. intros v. rewrite A3, B3. apply Hm. }
  exists vars, ll, s, s'. split; [auto|split; [auto|split; [auto|]]]. rewrite B4. f_equal. f_equal. apply nexp_inj. rewrite A5, B5. apply Hv.
  apply all_leaves_True. intros d. apply nexp_nonneg.
Qed.

Lemma probabilities_alike {D} (g g' : graph D) r r' t t' (dprob : D -> option num) : tree_circuit g r t -> tree_circuit g' r' t' ->
  (forall val, all_leaves (fun d => nonneg (val d)) t -> semN val t' = semN val t) ->
  (forall P, all_leaves P t -> all_leaves P t') ->
  all_leaves (fun d => exists p, dprob d = Some p /\ nonneg p) t -> same_probability dprob g g'.
Proof.
  intros H H' Hv Hl Hp st st'. pose proof (tc_tree _ _ _ H) as T. pose proof (tc_tree _ _ _ H') as T'.
  set (val := fun d => match dprob d with Some p => p | None => NaN end).
  assert (G : forall d, (exists p, dprob d = Some p /\ nonneg p) -> dprob d = Some (val d) /\ nonneg (val d)).
  { intros d [p [E Hn]]. unfold val. rewrite E. auto. }
  destruct (probability_correct dprob val g r t st) as [s Es];
    [apply T|apply H|now apply tree_root|now apply tree_graded|apply H|eapply all_leaves_impl; [|exact Hp]; intros d Hd; now apply G|].
  destruct (probability_correct dprob val g' r' t' st') as [s' Es'];
    [apply T'|apply H'|now apply tree_root|now apply tree_graded|apply H'|eapply all_leaves_impl; [|apply Hl; exact Hp]; intros d Hd; now apply G|].
  exists (semN val t), s, s'. split; auto. rewrite Es'. rewrite Hv; auto. eapply all_leaves_impl; [|exact Hp]. intros d Hd. now apply G.
Qed.

(** Proved part: tree-shaped circuits (of any size) with finite log weights.  Missing: circuits with shared units and
    circuits with log weights of minus infinity; for both the claim is false. *)
Theorem C13_simplify_partial {D} (dead : D -> bool) dvars (g : graph D) r t :
  tree_shaped g r -> valid_circuit dead dvars g r t -> fin_sums t -> simplify_preserves dead dvars g t.
Proof.
  intros T V F. assert (H : tree_circuit g r t) by (constructor; auto; apply V).
  destruct (simplify_meaning dead dvars g r t) as [g' [r' [t' [H1 [H2 [H3 [H4 [H5 [H6 [H7 H8]]]]]]]]]]; auto; try apply V.
  exists g'. split; [auto|split].
  - eapply answers_alike; eauto. apply V.
  - intros dprob Hp. eapply probabilities_alike; eauto.
Qed.

(** A sum unit 3 shared by the sum units 1 and 2.  Merging it into unit 1 deletes it, so unit 2 silently loses half of
    its mass. *)
Definition h2 : option num := Some (Fin (ln (1/2))).
Definition shared_sum : graph bool :=
  mkGraph [(0, USum); (1, USum); (2, USum); (3, USum); (4, ULeaf false); (5, ULeaf false); (6, ULeaf true); (7, ULeaf true)]%nat
    [mkEdge 0 1 h2; mkEdge 0 2 h2; mkEdge 1 3 h2; mkEdge 1 4 h2; mkEdge 2 3 h2; mkEdge 2 5 h2; mkEdge 3 6 h2; mkEdge 3 7 h2]%nat.

Definition w2 := Fin (ln (1/2)).
Definition shared_sum_tree : pc bool :=
  let s := PSum [(w2, PLeaf true); (w2, PLeaf true)] in
  PSum [(w2, PSum [(w2, s); (w2, PLeaf false)]); (w2, PSum [(w2, s); (w2, PLeaf false)])].

Ltac concrete_wf :=
  constructor; cbn;
  [ repeat constructor; cbn; intuition lia
  | repeat constructor; cbn; intuition congruence
  | let e := fresh in let H := fresh in intros e H; repeat destruct H as [<-|H]; cbn; tauto
  | let e := fresh in let H := fresh in intros e H; repeat destruct H as [<-|H]; cbn; tauto ].

Ltac on_edges := let e := fresh in let H := fresh in
  intros e H; repeat (destruct H as [<-|H]; [cbn; try lia; try reflexivity|]); try (destruct H).

Lemma convex_halves : convex [w2; w2].
Proof. split; [repeat constructor|]. cbn. rewrite exp_ln by lra. lra. Qed.

Lemma shared_sum_valid : valid_circuit (fun _ => false) (fun _ => [0%nat]) shared_sum 0%nat shared_sum_tree.
Proof.
  constructor.
  - concrete_wf.
  - exists (fun u => 8 - u)%nat. on_edges.
  - intros e d H. repeat destruct H as [<-|H]; cbn; try discriminate. destruct H.
  - reflexivity.
  - exists (fun u => if u =? 0 then 0 else if u <=? 2 then 1 else if u <=? 5 then 2 else 3)%nat. split; [reflexivity|].
    intros e H _. repeat destruct H as [<-|H]; cbn; try reflexivity. destruct H.
  - unfold shared_sum_tree. unf.
  - cbn. repeat split; try (repeat constructor); cbn; rewrite exp_ln by lra; lra.
  - cbn. repeat split; intuition.
  - cbn. tauto.
  - cbn. tauto.
Qed.

Definition shared_sum_after : graph bool :=
  mkGraph [(0, USum); (4, ULeaf false); (5, ULeaf false); (6, ULeaf true); (7, ULeaf true)]%nat
    [mkEdge 0 5 h2; mkEdge 0 4 (Some (nadd w2 w2)); mkEdge 0 6 (Some (nadd (nadd w2 w2) w2));
     mkEdge 0 7 (Some (nadd (nadd w2 w2) w2))]%nat.

Lemma shared_sum_simplify : simplify (fun _ => false) shared_sum = Some shared_sum_after.
Proof. reflexivity. Qed.

(** The probability of an event of probability 1/2 drops to 1/4. *)
Theorem C13_simplify_refuted : ~ C13_full.
Proof.
  intros H. destruct (H _ _ _ _ _ _ shared_sum_valid) as [g' [Hs [_ Hp]]]. rewrite shared_sum_simplify in Hs. injection Hs as <-.
  destruct (Hp (fun b : bool => Some (if b then Fin 1 else Fin 0))) with (st := @empty_store num) (st' := @empty_store num) as [p [s [s' [H1 H2]]]].
  - cbn. repeat split; eexists; (split; [reflexivity|cbn; lra]).
  - unfold probability_of_simple_event in H1, H2. cbn in H1, H2. injection H1 as H1 _. injection H2 as H2 _. rewrite <- H2 in H1. injection H1 as H1. revert H1.
    rewrite !exp_plus, !exp_ln by lra. lra.
Qed.

(** A concrete tree meeting the hypotheses: nested sums and a product with a single child. *)
Definition nested : graph nat :=
  mkGraph [(0, USum); (1, USum); (2, UProd); (3, UProd); (4, UProd); (5, ULeaf 0); (6, ULeaf 0); (7, ULeaf 1); (8, ULeaf 0); (9, ULeaf 1); (10, ULeaf 1)]%nat
    [mkEdge 0 1 h2; mkEdge 0 2 h2; mkEdge 1 3 h2; mkEdge 1 4 h2; mkEdge 2 5 None; mkEdge 2 10 None;
     mkEdge 3 6 None; mkEdge 3 7 None; mkEdge 4 8 None; mkEdge 4 9 None]%nat.

Definition nested_tree : pc nat :=
  let p := PProd [PLeaf 0%nat; PLeaf 1%nat] in PSum [(w2, PSum [(w2, p); (w2, p)]); (w2, p)].

Lemma nested_tree_shaped : tree_shaped nested 0%nat.
Proof.
  split; [concrete_wf|]. split; [exists (fun u => if u =? 10 then 0 else 20 - u)%nat; on_edges|].
  split; [cbn; tauto|]. split; [cbn; repeat constructor; cbn; intuition lia|].
  split; [|cbn; intuition lia]. cbn. intros u H Hn. repeat (destruct H as [<-|H]; [tauto|]). tauto.
Qed.

Example nested_valid : valid_circuit (fun _ => false) (fun v => [v]) nested 0%nat nested_tree /\ fin_sums nested_tree.
Proof.
  split; [|cbn; repeat split; auto; repeat constructor]. constructor.
  - apply nested_tree_shaped.
  - apply nested_tree_shaped.
  - intros e d H. repeat destruct H as [<-|H]; cbn; try discriminate. destruct H.
  - reflexivity.
  - apply tree_graded, nested_tree_shaped.
  - unfold nested_tree. unf.
  - cbn. repeat split; try (repeat constructor); cbn; rewrite exp_ln by lra; lra.
  - cbn. repeat split; intuition.
  - cbn. repeat split; auto; intuition lia.
  - cbn. tauto.
Qed.

Example nested_simplify : simplify_preserves (fun _ => false) (fun v => [v]) nested nested_tree.
Proof. apply (C13_simplify_partial _ _ _ 0%nat); [apply nested_tree_shaped|apply nested_valid|apply nested_valid]. Qed.

(** simplify does something here: unit 1 is merged. *)
Example nested_changes : exists g', simplify (fun _ => false) nested = Some g' /\ node_ids g' = [0; 2; 3; 4; 5; 6; 7; 8; 9; 10]%nat.
Proof. eexists. split; reflexivity. Qed.

(** ** C14 *)
Definition sums_alternate {D} (g : graph D) : Prop :=
  forall e, In e (g_edges g) -> ~ (node_kind g (e_src e) = Some USum /\ node_kind g (e_dst e) = Some USum).
Definition products_alternate {D} (g : graph D) : Prop :=
  forall e, In e (g_edges g) -> ~ (node_kind g (e_src e) = Some UProd /\ node_kind g (e_dst e) = Some UProd).

Definition C14_full : Prop :=
  forall D (dead : D -> bool) (g : graph D) r, wf g -> acyclic g -> root g = Some r -> graded g r -> finite_weights g -> alive dead g ->
  exists g', simplify dead g = Some g' /\ sums_alternate g' /\ products_alternate g'.

(** Proved part: no sum unit has a sum child afterwards, for every layered circuit, shared units included.  Missing: the
    same for products, which is false. *)
Theorem C14_alternating_partial {D} (dead : D -> bool) (g : graph D) r :
  wf g -> acyclic g -> root g = Some r -> graded g r -> finite_weights g -> alive dead g ->
  exists g', simplify dead g = Some g' /\ sums_alternate g'.
Proof.
  intros H1 H2 H3 H4 H5 H6. destruct (simplify_layered dead g r) as [g' [r' [A1 [A2 [A3 A4]]]]]; auto.
  exists g'. split; auto. intros e He [K1 K2]. apply (A4 (e_src e) K1 (e_dst e)); auto. exists e. auto.
Qed.

Definition nested_product : graph nat :=
  mkGraph [(0, UProd); (1, UProd); (2, ULeaf 0); (3, ULeaf 1); (4, ULeaf 2)]%nat
    [mkEdge 0 1 None; mkEdge 0 2 None; mkEdge 1 3 None; mkEdge 1 4 None]%nat.

Theorem C14_alternating_refuted : ~ C14_full.
Proof.
  intros H. destruct (H nat (fun _ => false) nested_product 0%nat) as [g' [Hs [_ Hp]]].
  - concrete_wf.
  - exists (fun u => 5 - u)%nat. on_edges.
  - reflexivity.
  - exists (fun u => if u =? 0 then 0 else if u <=? 2 then 1 else 2)%nat. split; [reflexivity|].
    intros e H' _. repeat destruct H' as [<-|H']; cbn; try reflexivity. destruct H'.
  - intros e H'. repeat destruct H' as [<-|H']; cbn; try discriminate. destruct H'.
  - intros u d _. reflexivity.
  - cbn in Hs. injection Hs as <-. apply (Hp (mkEdge 0%nat 1%nat None)); cbn; auto.
Qed.

(** shared_sum above meets the hypotheses. *)
Lemma shared_sum_finite : finite_weights shared_sum.
Proof. intros e H. repeat destruct H as [<-|H]; cbn; intros; try (eexists; reflexivity). destruct H. Qed.

Example shared_sum_alternates : exists g', simplify (fun _ => false) shared_sum = Some g' /\ sums_alternate g'.
Proof.
  destruct shared_sum_valid. apply (C14_alternating_partial _ _ 0%nat); auto; [apply shared_sum_finite|]. intros u d _. reflexivity.
Qed.

(** ** C15 *)
Definition C15_full : Prop :=
  forall D (dead : D -> bool) (g g' : graph D), wf g -> acyclic g -> alive dead g -> (exists r, root g = Some r) ->
  simplify dead g = Some g' -> exists r', root g' = Some r'.

(** Proved part: all rooted acyclic circuits, layered or not, in which the edges of sum units carry finite log weights.
    Missing: edges of log weight minus infinity; false there. *)
Theorem C15_unique_root_partial {D} (dead : D -> bool) (g g' : graph D) :
  wf g -> acyclic g -> alive dead g -> finite_weights g -> (exists r, root g = Some r) ->
  simplify dead g = Some g' -> exists r', root g' = Some r'.
Proof. intros H1 H2 H3 H4 H5 H6. apply (simplify_root dead g g'); auto. Qed.

(** On layered circuits simplify moreover does not raise. *)
Theorem C15_simplify_returns {D} (dead : D -> bool) (g : graph D) r :
  wf g -> acyclic g -> alive dead g -> finite_weights g -> root g = Some r -> graded g r ->
  exists g' r', simplify dead g = Some g' /\ wf g' /\ root g' = Some r'.
Proof.
  intros H1 H2 H3 H4 H5 H6. destruct (simplify_layered dead g r) as [g' [r' [A1 [A2 [A3 A4]]]]]; auto. exists g', r'. auto.
Qed.

(** A zero-weight edge to a leaf is removed but the leaf stays, as a second root. *)
Definition zero_edge : graph nat :=
  mkGraph [(0, USum); (1, ULeaf 0); (2, ULeaf 0)]%nat [mkEdge 0 1 (Some NInf); mkEdge 0 2 (Some (Fin 0))]%nat.

Theorem C15_unique_root_refuted : ~ C15_full.
Proof.
  intros H. destruct (H nat (fun _ => false) zero_edge
    (mkGraph [(0, USum); (1, ULeaf 0); (2, ULeaf 0)]%nat [mkEdge 0 2 (Some (Fin 0))]%nat)) as [r' Hr].
  - concrete_wf.
  - exists (fun u => 5 - u)%nat. on_edges.
  - intros u d _. reflexivity.
  - exists 0%nat. reflexivity.
  - reflexivity.
  - discriminate Hr.
Qed.

Example shared_sum_root : exists g' r', simplify (fun _ => false) shared_sum = Some g' /\ wf g' /\ root g' = Some r'.
Proof.
  destruct shared_sum_valid. apply (C15_simplify_returns _ _ 0%nat); auto; [|apply shared_sum_finite]. intros u d _. reflexivity.
Qed.

(** ** C16 *)

(** The weights (exponentials of the log weights) of a unit. *)
Definition weight (e : edge) : R := match e_lw e with Some w => wexp w | None => 0 end.
Definition weighted (e : edge) : Prop := exists w, e_lw e = Some w /\ lw_ok w.

Theorem C16_normalize {D} (g : graph D) : wf g ->
  (forall u, node_kind g u = Some USum -> Forall weighted (out_edges g u) /\ 0 < Rsum (map weight (out_edges g u))) ->
  exists g', normalize g = Some g' /\
    (* the units and the edges are the old ones *)
    g_nodes g' = g_nodes g /\ map (fun e => (e_src e, e_dst e)) (g_edges g') = map (fun e => (e_src e, e_dst e)) (g_edges g) /\
    (forall u, node_kind g u = Some USum ->
       Forall weighted (out_edges g' u) /\ Forall (fun e => 0 <= weight e) (out_edges g' u) /\ Rsum (map weight (out_edges g' u)) = 1 /\
       (* ratios are unchanged *)
       forall e1 e1' e2 e2', In (e1, e1') (combine (out_edges g u) (out_edges g' u)) -> In (e2, e2') (combine (out_edges g u) (out_edges g' u)) ->
         e_dst e1' = e_dst e1 /\ weight e1' * weight e2 = weight e2' * weight e1) /\
    (forall u, node_kind g u <> Some USum -> out_edges g' u = out_edges g u).
Proof.
  intros Hwf Hp. destruct (normalize_spec g) as [g' [H1 [H2 [H3 [H4 H5]]]]]; [apply Hwf| |].
  - intros u Hu. destruct (Hp u Hu) as [Ha Hb]. exists (map (fun e => match e_lw e with Some w => w | None => NaN end) (out_edges g u)).
    clear - Ha Hb. unfold weights_of. split; [|split].
    + apply mapM_Forall2. clear Hb. induction Ha as [|e l [w [E _]] Hl IH]; simpl; constructor; auto. now rewrite E.
    + apply Forall_map. eapply Forall_impl; [|exact Ha]. intros e [w [-> Hw]]. exact Hw.
    + rewrite map_map. erewrite map_ext; [exact Hb|]. intros e. unfold weight. now destruct (e_lw e).
  - exists g'. split; [auto|split; [auto|split; [auto|split; [|auto]]]]. intros u Hu. destruct (H4 u Hu) as [c [Hc [HF Hsum]]].
    split; [|split; [|split]].
    + clear - HF. induction HF as [|e e' l l' [_ [_ [w [w' [_ [E [Ho _]]]]]]] HF IH]; constructor; auto. exists w'. auto.
    + apply Forall_forall. intros e _. unfold weight, wexp. destruct (e_lw e) as [[| |x|]|]; try lra. left. apply exp_pos.
    + exact Hsum.
    + assert (G : forall e e', In (e, e') (combine (out_edges g u) (out_edges g' u)) -> e_dst e' = e_dst e /\ weight e' = weight e / c).
      { clear - HF. induction HF as [|e e' l l' [_ [Ed [w [w' [E1 [E2 [_ E3]]]]]]] HF IH]; simpl; [tauto|].
        intros a a' [E|Hin]; auto. inversion E; subst. split; auto. unfold weight. now rewrite E1, E2. }
      intros e1 e1' e2 e2' I1 I2. destruct (G _ _ I1) as [D1 ->]. destruct (G _ _ I2) as [D2 ->]. split; auto. unfold Rdiv. ring.
Qed.

(** Log weights ln 1, ln 3 and -inf become weights 1/4, 3/4 and 0. *)
Definition unnormalised : graph nat :=
  mkGraph [(0, USum); (1, ULeaf 0); (2, ULeaf 0); (3, ULeaf 0)]%nat
    [mkEdge 0 1 (Some (Fin 0)); mkEdge 0 2 (Some (Fin (ln 3))); mkEdge 0 3 (Some NInf)]%nat.

Example unnormalised_ok : wf unnormalised /\
  (forall u, node_kind unnormalised u = Some USum -> Forall weighted (out_edges unnormalised u) /\ 0 < Rsum (map weight (out_edges unnormalised u))).
Proof.
  split; [concrete_wf|]. intros u Hu. assert (u = 0%nat) as ->.
  { destruct u as [|[|[|[|u]]]]; auto; discriminate. }
  split; [repeat constructor; eexists; split; try reflexivity; exact I|]. cbn. rewrite exp_0, exp_ln by lra. lra.
Qed.

Example unnormalised_result : exists g', normalize unnormalised = Some g' /\ map weight (out_edges g' 0%nat) = [1/4; 3/4; 0].
Proof.
  destruct (logsumexp_weights [Fin 0; Fin (ln 3); NInf]) as [z [Hz He]].
  - repeat constructor.
  - cbn. rewrite exp_0, exp_ln by lra. lra.
  - eexists. split; [unfold normalize; cbn -[logsumexp nsub]; rewrite Hz; reflexivity|].
    revert He. cbn. unfold weight. cbn. unfold Rminus. rewrite !exp_plus, !exp_Ropp, exp_0, exp_ln by lra. intros ->.
    f_equal; [|f_equal]; try lra; f_equal; lra.
Qed.

Print Assumptions C13_simplify_partial.
Print Assumptions C13_simplify_refuted.
Print Assumptions C14_alternating_partial.
Print Assumptions C14_alternating_refuted.
Print Assumptions C15_unique_root_partial.
Print Assumptions C15_simplify_returns.
Print Assumptions C15_unique_root_refuted.
Print Assumptions C16_normalize.
