(** * Property C83: circuit objects behave like the circuits they stand for

    The theorems about marginals, simplification, normalisation and conditioning speak about circuits as values, those about
    copies (C11, C20) about objects on a heap that share units and distributions.  Here the two are joined: what a method
    does to a circuit object is what the function does to the circuit that the object stands for. *)
From Coq Require Import List Arith Bool Lia Reals Lra ZArith Sorting.Sorted Permutation.
From Verif Require Import Num Graph GraphFacts Spec SpecFacts Circuit EvalFacts VarFacts PropertiesQuery Interval GaussInt Dist DistFacts
  TreeProb PropertiesProb Simplify SimplifyFacts TreeLocal DagFacts PropertiesSimplify PropertiesMarginal Conditional ConditionalFacts
  LeafCond CondBayes ConditionalEvent PropertiesConditional Rename Copy CopyFacts EqFacts Heap HeapFacts HeapOps World WorldFacts PropertiesCopy PropertiesConditionalEvent
  Relate HeapRefine RenameTree HeapEvent.
Import ListNotations.
Local Open Scope R_scope.
Local Open Scope nat_scope.
Local Set Bullet Behavior "Strict Subproofs".

(** In [W'] circuit object [i] stands for [q]; there are as many circuit objects as before. *)
Definition becomes (W : world) (i : nat) (W' : world) (q : graph dist) : Prop :=
  w_view W' i = Some q /\ List.length (w_circs W') = List.length (w_circs W).

(** [W'] has one circuit object more, which stands for [q]; all others stand for what they stood for. *)
Definition gains (W W' : world) (q : graph dist) : Prop :=
  List.length (w_circs W') = S (List.length (w_circs W)) /\ w_view W' (List.length (w_circs W)) = Some q /\
  forall p, p < List.length (w_circs W) -> w_view W' p = w_view W p.

Lemma view_set H l i c : i < List.length l -> w_view (mkWorld H (set_nth l i c)) i = view H c.
Proof. intros L. unfold w_view. cbn [w_circs w_heap]. now rewrite set_nth_same. Qed.

Lemma nth_lt {A} (l : list A) i c : nth_error l i = Some c -> i < List.length l.
Proof. intros E. apply nth_error_Some. congruence. Qed.

(** ** In place *)

(** Simplifying and normalising a circuit object raise exactly when they raise for the circuit, and otherwise leave the
    object standing for the result. *)
Theorem C83_simplify W i g : world_ok W -> w_view W i = Some g ->
  match simplify (fun _ => false) g with
  | Some q => exists W', w_in_place W i OpSimplify = Some W' /\ becomes W i W' q
  | None => w_in_place W i OpSimplify = None
  end.
Proof.
  intros K V. unfold w_view in V. destruct (nth_error (w_circs W) i) as [c|] eqn:Ec; [|discriminate].
  pose proof (h_simplify_view _ c g (world_circ_ok W i c K Ec) V) as X. unfold w_in_place. rewrite Ec. cbn [run_op fst snd].
  destruct (simplify (fun _ => false) g) as [q|], (h_simplify (w_heap W) c) as [[H' c']|]; cbn in X; try contradiction; [|reflexivity].
  eexists. split; [reflexivity|]. split; [|cbn; now rewrite set_nth_length]. rewrite view_set by exact (nth_lt _ _ _ Ec). exact X.
Qed.

Theorem C83_normalize W i g : world_ok W -> w_view W i = Some g ->
  match normalize g with
  | Some q => exists W', w_in_place W i OpNormalize = Some W' /\ becomes W i W' q
  | None => w_in_place W i OpNormalize = None
  end.
Proof.
  intros K V. unfold w_view in V. destruct (nth_error (w_circs W) i) as [c|] eqn:Ec; [|discriminate].
  pose proof (h_normalize_view _ c g (world_circ_ok W i c K Ec) V) as X. unfold w_in_place. rewrite Ec. cbn [run_op fst snd].
  destruct (normalize g) as [q|], (h_normalize (w_heap W) c) as [[H' c']|]; cbn in X; try contradiction; [|reflexivity].
  eexists. split; [reflexivity|]. split; [|cbn; now rewrite set_nth_length]. rewrite view_set by exact (nth_lt _ _ _ Ec). exact X.
Qed.

(** The marginal in place.  The return value is None exactly when the function has no result; then the object is left
    as it happens to be. *)
Theorem C83_marginal_in_place W i c vs g : world_ok W -> nth_error (w_circs W) i = Some c -> view (w_heap W) c = Some g ->
  match marginal_in_place (fun _ => false) marginal1 vs g with
  | Some (Some q) => (exists H' c', h_marginal_in_place vs (w_heap W) c = Some (H', c', true)) /\
                     exists W', w_in_place W i (OpMarginal vs) = Some W' /\ becomes W i W' q
  | Some None => exists H' c', h_marginal_in_place vs (w_heap W) c = Some (H', c', false)
  | None => h_marginal_in_place vs (w_heap W) c = None
  end.
Proof.
  intros K Ec V. pose proof (h_marginal_view vs _ c g (world_circ_ok W i c K Ec) V) as X. unfold w_in_place. rewrite Ec. cbn [run_op fst snd].
  destruct (marginal_in_place (fun _ => false) marginal1 vs g) as [[q|]|], (h_marginal_in_place vs (w_heap W) c) as [[[H' c'] b]|];
    cbn in X; try contradiction; try reflexivity.
  - destruct X as [-> X]. split; [eauto|]. eexists. split; [reflexivity|]. split; [|cbn; now rewrite set_nth_length].
    rewrite view_set by exact (nth_lt _ _ _ Ec). exact X.
  - subst b. eauto.
Qed.

(** Conditioning on one simple set in place: the result is the circuit of [conditional_on] built from other objects, where
    the units that existed before keep their identity, and the returned number is the same. *)
Theorem C83_conditional_in_place W i c e sts g : world_ok W -> nth_error (w_circs W) i = Some c -> view (w_heap W) c = Some g -> wf g ->
  exists st f, (forall u, In u (node_ids g) -> f u = u) /\
  match conditional_on e g st with
  | Some (Some q, lp) =>
      (exists H' c', h_conditional_in_place [e] sts (w_heap W) c = Some (H', c', Some lp)) /\
      exists W' q', w_in_place W i (OpConditional [e] sts) = Some W' /\ becomes W i W' q' /\ same_circuit f q q' /\ same_answers q q'
  | Some (None, _) => exists H' c', h_conditional_in_place [e] sts (w_heap W) c = Some (H', c', None)
  | None => h_conditional_in_place [e] sts (w_heap W) c = None
  end.
Proof.
  intros K Ec V F. pose proof (world_circ_ok W i c K Ec) as O.
  pose proof (h_conditional_simple_view e (hd empty_store sts) _ c g O V F) as X.
  exists (fun u => hd empty_store sts (cond_name (w_heap W) g u)), (cond_name (w_heap W) g). split; [apply cond_name_old|].
  unfold w_in_place. rewrite Ec. cbn [run_op fst snd h_conditional_in_place].
  destruct (conditional_on e g (fun u => hd empty_store sts (cond_name (w_heap W) g u))) as [[[q|] lp]|],
    (h_conditional_simple e (hd empty_store sts) (w_heap W) c) as [[[[H' c'] lp'] st']|]; cbn in X; try contradiction; try reflexivity.
  - destruct X as [X ->]. split; [eauto|]. eexists _, _. split; [reflexivity|].
    assert (S : same_as (cond_name (w_heap W) g) q (rename (cond_name (w_heap W) g) q)) by (apply rename_same_as, new_name_inj).
    split; [split; [|cbn; now rewrite set_nth_length]; rewrite view_set by exact (nth_lt _ _ _ Ec); exact X|].
    split; [exact (same_as_circuit _ _ _ S)|exact (same_as_answers _ _ _ S)].
  - subst lp'. eauto.
Qed.

(** ** New circuits *)

Lemma copy_step W i c g : world_ok W -> nth_error (w_circs W) i = Some c -> view (w_heap W) c = Some g ->
  exists H1 c1, h_copy (w_heap W) c = Some (H1, c1) /\ w_copy W i = Some (mkWorld H1 (w_circs W ++ [c1])) /\ circ_ok H1 c1 /\
    view H1 c1 = Some (circuit_copy (copy_name (w_heap W) c) g).
Proof.
  intros K Ec V. pose proof (world_circ_ok W i c K Ec) as O. destruct (h_copy_view _ _ _ O V) as (H1 & c1 & E1 & V1).
  exists H1, c1. split; [exact E1|]. assert (E : w_copy W i = Some (mkWorld H1 (w_circs W ++ [c1]))) by (unfold w_copy; now rewrite Ec, E1).
  split; [exact E|]. split; [|exact V1]. pose proof (copy_ok W K i _ E) as K1.
  apply (world_circ_ok _ (List.length (w_circs W)) c1 K1). cbn. now rewrite nth_error_app2, Nat.sub_diag by lia.
Qed.

Lemma last_in_place W H1 c1 o H2 c2 : run_op (H1, c1) o = Some (H2, c2) ->
  exists W', w_in_place (mkWorld H1 (w_circs W ++ [c1])) (List.length (w_circs W)) o = Some W' /\
    w_view W' (List.length (w_circs W)) = view H2 c2 /\ List.length (w_circs W') = S (List.length (w_circs W)).
Proof.
  intros E. unfold w_in_place. cbn [w_circs w_heap].
  rewrite nth_error_app2, Nat.sub_diag by lia. cbn [nth_error]. rewrite E. eexists. split; [reflexivity|].
  split; [|cbn; rewrite set_nth_length, app_length; cbn; lia]. rewrite view_set; [reflexivity|]. rewrite app_length. cbn. lia.
Qed.

(** The marginal of a circuit object, for all valid trees with finite log weights: if a variable of [vs] occurs, a new
    object appears that stands for a circuit over these variables with the right probabilities, and no other object
    changes; otherwise the return value is None. *)
Theorem C83_marginal W i c vs g r t : world_ok W -> nth_error (w_circs W) i = Some c -> view (w_heap W) c = Some g ->
  valid_tree g r t -> fin_sums t ->
  ((exists v, In v vs /\ mentions dist_vars t v) ->
     exists W' q vars, w_marginal W i vs = Some W' /\ gains W W' q /\
       circuit_variables dist_vars q = Some vars /\ StronglySorted lt vars /\
       (forall v, In v vars <-> mentions dist_vars t v /\ In v vs) /\
       forall e, event_ok t e -> extends_by_domain t vs e -> exists p, answers g e p /\ answers q e p) /\
  ((forall v, In v vs -> ~ mentions dist_vars t v) -> exists H' c', h_marginal vs (w_heap W) c = Some (H', c', false)).
Proof.
  intros K Ec V T F. destruct (copy_step W i c g K Ec V) as (H1 & c1 & E1 & EW & O1 & V1).
  pose proof (valid_tree_copy (copy_name (w_heap W) c) g r t (copy_name_inj _ _) T) as T1.
  pose proof (circuit_copy_same_as (copy_name (w_heap W) c) g (copy_name_inj _ _) (proj1 (vt_tree _ _ _ T))) as SA.
  destruct (C12_marginal_partial vs _ _ t T1 F) as (res & Em & Hn & Hs). pose proof (h_marginal_view vs H1 c1 _ O1 V1) as X.
  rewrite Em in X. destruct (h_marginal_in_place vs H1 c1) as [[[H2 c2] b]|] eqn:E2; cbn in X; [|contradiction]. split.
  - intros (v & Hv & Hm). destruct res as [q|]; [|exfalso; exact (proj1 Hn eq_refl v Hv Hm)]. destruct X as [-> X].
    destruct (last_in_place W H1 c1 (OpMarginal vs) H2 c2) as (W' & EW' & Vw & Lw); [cbn [run_op fst snd]; now rewrite E2|].
    assert (EM : w_marginal W i vs = Some W') by (unfold w_marginal; now rewrite EW).
    destruct (Hs q eq_refl) as [(vars & V2 & V3 & V4) Ha]. exists W', q, vars. split; [exact EM|].
    split; [split; [exact Lw|split; [congruence|]]; intros p Lp; exact (proj2 (C11_marginal_keeps W i vs W' K EM p Lp))|].
    split; [exact V2|]. split; [exact V3|]. split; [exact V4|]. intros e He Hx. destruct (Ha e He Hx) as (p & A1 & A2).
    exists p. split; [|exact A2].
    assert (Ag : answers g e (prob_of e t)).
    { apply answers_semR; [|now apply fin_ok|apply T|exact He]. apply (tree_layered g r t). constructor; auto; apply T. }
    now rewrite (answers_unique _ _ _ _ A1 (answers_same _ _ _ e _ SA Ag)).
  - intros Hno. destruct res as [q|]; [exfalso; discriminate (proj2 Hn Hno)|]. subst b. exists H2, c2. unfold h_marginal. now rewrite E1.
Qed.

(** Conditioning a circuit object on one simple set.  The returned number is the probability of the set ... *)
Theorem C83_probability_partial W i c e sts g r t : world_ok W -> nth_error (w_circs W) i = Some c -> view (w_heap W) c = Some g ->
  valid_tree g r t -> fin_sums t -> event_ok t e -> all_leaves (fun d => no_points d (e (dvar d))) t ->
  (exists H' c', h_conditional [e] sts (w_heap W) c = Some (H', c', Fin (prob_of e t))) /\
  (exists H' c' lp, h_log_conditional [e] sts (w_heap W) c = Some (H', c', lp) /\ (lp = None <-> prob_of e t = 0%R)).
Proof.
  intros K Ec V T F He Hn. destruct (copy_step W i c g K Ec V) as (H1 & c1 & E1 & EW & O1 & V1).
  pose proof (valid_tree_copy (copy_name (w_heap W) c) g r t (copy_name_inj _ _) T) as T1.
  pose proof (h_conditional_simple_view e (hd empty_store sts) _ c1 _ O1 V1 (proj1 (vt_tree _ _ _ T1))) as X.
  destruct (proj2 (C08_conditional_probability_partial e _ _ t T1 F He Hn)
              (fun u => hd empty_store sts (cond_name H1 (circuit_copy (copy_name (w_heap W) c) g) u))) as (res & lp & Ed & El & Hz).
  rewrite Ed in X. unfold h_conditional, h_log_conditional. rewrite E1. cbn [h_conditional_in_place].
  destruct (h_conditional_simple e (hd empty_store sts) H1 c1) as [[[[H2 c2] lp2] st2]|]; cbn in X; [|contradiction].
  destruct res as [q|].
  - destruct X as [_ ->]. rewrite El. split; [eauto|]. exists H2, c2, (Some lp). split; [reflexivity|]. split; [discriminate|].
    intros Z. discriminate (proj2 Hz Z).
  - subst lp2. rewrite (proj1 Hz eq_refl). split; [eauto|]. exists H2, c2, None. tauto.
Qed.

(** ... a new object appears that follows Bayes' rule, and no other object changes. *)
Theorem C83_conditional_partial W i e sts g r t : world_ok W -> w_view W i = Some g ->
  valid_tree g r t -> fin_sums t -> regular t e -> (0 < prob_of e t)%R ->
  exists W' q rq tq, w_log_conditional W i [e] sts = Some W' /\ gains W W' q /\ valid_tree q rq tq /\ answers q e 1 /\
    forall a c, event_ok t a -> meet t c e a -> answers q a (prob_of c t / prob_of e t).
Proof.
  intros K Vw T F HR Hp. unfold w_view in Vw. destruct (nth_error (w_circs W) i) as [c|] eqn:Ec; [|discriminate].
  destruct (copy_step W i c g K Ec Vw) as (H1 & c1 & E1 & EW & O1 & V1).
  pose proof (valid_tree_copy (copy_name (w_heap W) c) g r t (copy_name_inj _ _) T) as T1.
  set (g1 := circuit_copy (copy_name (w_heap W) c) g) in *.
  pose proof (h_conditional_simple_view e (hd empty_store sts) _ c1 _ O1 V1 (proj1 (vt_tree _ _ _ T1))) as X.
  destruct (event_bayes [e] g1 _ t T1 F) with (st := fun u => hd empty_store sts (cond_name H1 g1 u)) as (q & rq & tq & lp & Eq & Tq & Aq);
    [repeat constructor; apply HR|cbn; lra|].
  cbn [conditional_event] in Eq.
  rewrite Eq in X. destruct (h_conditional_simple e (hd empty_store sts) H1 c1) as [[[[H2 c2] lp2] st2]|] eqn:E2; cbn in X; [|contradiction].
  destruct X as [X ->].
  destruct (last_in_place W H1 c1 (OpConditional [e] sts) H2 c2) as (W' & EW' & Vw' & Lw); [cbn [run_op fst snd h_conditional_in_place]; now rewrite E2|].
  assert (EM : w_log_conditional W i [e] sts = Some W') by (unfold w_log_conditional; now rewrite EW).
  assert (SA : same_as (cond_name H1 g1) q (rename (cond_name H1 g1) q)) by (apply rename_same_as, new_name_inj).
  assert (B : forall a c, event_ok t a -> meet t c e a -> answers (rename (cond_name H1 g1) q) a (prob_of c t / prob_of e t)).
  { intros a c0 Ha Hm. pose proof (Aq a [c0] Ha ltac:(auto)) as A. cbn in A. rewrite !Rplus_0_r in A. exact (answers_same _ _ _ a _ SA A). }
  exists W', (rename (cond_name H1 g1) q), (cond_name H1 g1 rq), tq. split; [exact EM|].
  split; [split; [exact Lw|split; [congruence|]]; intros p Lp; exact (proj2 (C11_log_conditional_keeps W i [e] sts W' K EM p Lp))|].
  split; [apply (valid_tree_ren _ q rq tq (g_edges q)); auto; apply new_name_inj|]. split; [|exact B].
  assert (He : event_ok t e) by apply HR. pose proof (B e (both_of e e) He (both_meet t e e He He)) as Y.
  rewrite (both_same t e (vt_ok _ _ _ T) He) in Y. replace (prob_of e t / prob_of e t)%R with 1%R in Y by (field; lra). exact Y.
Qed.

(** Events of any number of simple sets.  The new object follows Bayes' rule over the simple sets ... *)
Theorem C83_event_partial W i es sts g r t : world_ok W -> w_view W i = Some g ->
  valid_tree g r t -> fin_sums t -> Forall (regular t) es -> (0 < Rsum (map (fun e => prob_of e t) es))%R ->
  exists W' q rq tq, w_log_conditional W i es sts = Some W' /\ gains W W' q /\ valid_tree q rq tq /\
    forall a cs, event_ok t a -> Forall2 (fun e c => meet t c e a) es cs ->
      answers q a (Rsum (map (fun c => prob_of c t) cs) / Rsum (map (fun e => prob_of e t) es))%R.
Proof.
  intros K Vw T F HR Hp. destruct es as [|e [|e1 es]]; [cbn in Hp; lra| |].
  - inversion HR as [|x y He _]; subst. cbn in Hp. rewrite Rplus_0_r in Hp.
    destruct (C83_conditional_partial W i e sts g r t K Vw T F He Hp) as (W' & q & rq & tq & E & G & Tq & _ & A).
    exists W', q, rq, tq. split; [exact E|]. split; [exact G|]. split; [exact Tq|]. intros a cs Ha Hm.
    inversion Hm as [|x c y cs' M Hm']; subst. inversion Hm'; subst. cbn. rewrite !Rplus_0_r. now apply A.
  - remember (e :: e1 :: es) as ees eqn:Ees. assert (Len : 2 <= List.length ees) by (subst; cbn; lia). clear Ees e e1 es.
    unfold w_view in Vw. destruct (nth_error (w_circs W) i) as [c|] eqn:Ec; [|discriminate].
    destruct (copy_step W i c g K Ec Vw) as (H1 & c1 & E1 & EW & O1 & V1).
    pose proof (valid_tree_copy (copy_name (w_heap W) c) g r t (copy_name_inj _ _) T) as T1.
    destruct (proj1 (h_event ees sts H1 c1 _ _ t O1 V1 T1 F HR Len) Hp) as (H2 & c2 & lp & q & rq & tq & E2 & V2 & Tq & A).
    destruct (last_in_place W H1 c1 (OpConditional ees sts) H2 c2) as (W' & EW' & Vw' & Lw); [cbn [run_op fst snd]; now rewrite E2|].
    assert (EM : w_log_conditional W i ees sts = Some W') by (unfold w_log_conditional; now rewrite EW).
    exists W', q, rq, tq. split; [exact EM|].
    split; [split; [exact Lw|split; [congruence|]]; intros p Lp; exact (proj2 (C11_log_conditional_keeps W i ees sts W' K EM p Lp))|].
    split; [exact Tq|exact A].
Qed.

(** ... in place as well as on a copy ... *)
Theorem C83_event_in_place_partial W i es sts g r t : world_ok W -> w_view W i = Some g ->
  valid_tree g r t -> fin_sums t -> Forall (regular t) es -> (0 < Rsum (map (fun e => prob_of e t) es))%R -> 2 <= List.length es ->
  exists W' q rq tq, w_in_place W i (OpConditional es sts) = Some W' /\ becomes W i W' q /\ valid_tree q rq tq /\
    forall a cs, event_ok t a -> Forall2 (fun e c => meet t c e a) es cs ->
      answers q a (Rsum (map (fun c => prob_of c t) cs) / Rsum (map (fun e => prob_of e t) es))%R.
Proof.
  intros K Vw T F HR Hp Len. unfold w_view in Vw. destruct (nth_error (w_circs W) i) as [c|] eqn:Ec; [|discriminate].
  destruct (proj1 (h_event es sts _ c _ _ t (world_circ_ok W i c K Ec) Vw T F HR Len) Hp) as (H2 & c2 & lp & q & rq & tq & E2 & V2 & Tq & A).
  unfold w_in_place. rewrite Ec. cbn [run_op fst snd]. rewrite E2. do 4 eexists. split; [reflexivity|].
  split; [|split; [exact Tq|exact A]]. split; [|cbn; now rewrite set_nth_length]. rewrite view_set by exact (nth_lt _ _ _ Ec). exact V2.
Qed.

(** ... and for an impossible event the return value is None and the probability 0. *)
Theorem C83_impossible_event W i c es sts g r t : world_ok W -> nth_error (w_circs W) i = Some c -> view (w_heap W) c = Some g ->
  valid_tree g r t -> fin_sums t -> Forall (regular t) es -> Forall (fun e => prob_of e t = 0%R) es ->
  (exists H' c', h_log_conditional es sts (w_heap W) c = Some (H', c', None)) /\
  (exists H' c', h_conditional es sts (w_heap W) c = Some (H', c', Fin 0)).
Proof.
  intros K Ec V T F HR HZ. destruct es as [|e [|e1 es]].
  - destruct (copy_step W i c g K Ec V) as (H1 & c1 & E1 & _). unfold h_conditional, h_log_conditional. rewrite E1. cbn [h_conditional_in_place]. split; eauto.
  - inversion HR as [|x y He _]; subst. inversion HZ as [|x y Z _]; subst.
    destruct (C83_probability_partial W i c e sts g r t K Ec V T F (rg_ok _ _ He) (rg_points _ _ He)) as [(H' & c' & P) (H2 & c2 & lp & Q & L)].
    rewrite Z in P. rewrite (proj2 L Z) in Q. split; eauto.
  - remember (e :: e1 :: es) as ees eqn:Ees. assert (Len : 2 <= List.length ees) by (subst; cbn; lia). clear Ees e e1 es.
    destruct (copy_step W i c g K Ec V) as (H1 & c1 & E1 & EW & O1 & V1).
    pose proof (valid_tree_copy (copy_name (w_heap W) c) g r t (copy_name_inj _ _) T) as T1.
    destruct (proj2 (h_event ees sts H1 c1 _ _ t O1 V1 T1 F HR Len) HZ) as (H2 & E2).
    unfold h_conditional, h_log_conditional. rewrite E1, E2. split; eauto.
Qed.

(** ** Concrete cases *)

(** The marginal of the mixture of [demo_world] over the variables 1 and 7. *)
Example demo_world_marginal : exists W' q, w_marginal demo_world 0 [1; 7] = Some W' /\ gains demo_world W' q /\
  circuit_variables dist_vars q = Some [1].
Proof.
  destruct demo_world_ok as [K _], demo_valid_tree as [T F].
  destruct (C83_marginal demo_world 0 _ [1; 7] demo_graph _ _ K eq_refl eq_refl T F) as [H _].
  destruct H as (W' & q & vars & E & G & EV & S & M & _); [exists 1; cbn; intuition|].
  exists W', q. split; [exact E|]. split; [exact G|]. rewrite EV. f_equal. apply sorted_same; [exact S|repeat constructor|].
  intros v. rewrite M. cbn. intuition lia.
Qed.

(** The unit square next to another circuit, both as objects. *)
Definition square_world : world :=
  mkWorld (mkHeap [UProd; ULeaf 0; ULeaf 1; ULeaf 2]
                  [OCont (DUnif 0 (iclosed 0%R 1%R)); OCont (DUnif 1 (iclosed 0%R 1%R)); OCont (DGauss 0 0%R 1%R)] [])
          [mkCirc [0; 1; 2] (g_edges square); mkCirc [3] []].

Example square_world_ok : world_ok square_world /\ w_view square_world 0 = Some square.
Proof.
  split; [|reflexivity]. constructor; cbn.
  - split; cbn.
    + intros s v p a E. do 3 (destruct a as [|a]; [discriminate|]). destruct a; discriminate.
    + intros u a E. do 4 (destruct u as [|u]; [cbn in E; try discriminate; injection E as <-; lia|]). destruct u; discriminate.
  - intros [|[|i]] c E; cbn in E; try (destruct i; discriminate); injection E as <-; cbn.
    + split; [intros u Hu; cbn in Hu; cbn; lia|]. repeat constructor; cbn; intuition discriminate.
    + split; [intros u Hu; cbn in Hu; cbn; lia|]. repeat constructor; cbn; intuition discriminate.
  - intros [|[|i]] [|[|j]] c c' E E' N; cbn in E, E'; try congruence; try (destruct i; discriminate); try (destruct j; discriminate);
      injection E as <-; injection E' as <-; cbn; lia.
Qed.

(** Conditioned on the block [0, 1/2]²: the probability is 1/4, and the new object gives [0, 1/2]² the probability 1. *)
Example square_world_conditional :
  (exists H' c', h_conditional [block 0 (1/2)] [] (w_heap square_world) (mkCirc [0; 1; 2] (g_edges square)) = Some (H', c', Fin (1/4))) /\
  exists W' q, w_log_conditional square_world 0 [block 0 (1/2)] [] = Some W' /\ gains square_world W' q /\ answers q (block 0 (1/2)) 1.
Proof.
  destruct square_world_ok as [K V], square_valid as [T F].
  assert (HR : regular square_tree (block 0 (1/2))) by (apply block_regular; lra).
  assert (P : prob_of (block 0 (1/2)) square_tree = (1/4)%R) by (rewrite block_prob by lra; lra). split.
  - rewrite <- P. exact (proj1 (C83_probability_partial square_world 0 _ _ [] _ _ _ K eq_refl V T F (rg_ok _ _ HR) (rg_points _ _ HR))).
  - destruct (C83_conditional_partial square_world 0 _ [] _ _ _ K V T F HR ltac:(lra)) as (W' & q & rq & tq & E & G & _ & A & _).
    exists W', q. auto.
Qed.

(** Conditioned on [0, 1/2]² or [3/4, 1]²: the new object gives [0, 1/2]² the probability (1/4) / (1/4 + 1/16) = 4/5. *)
Example square_world_event : exists W' q, w_log_conditional square_world 0 [block 0 (1/2); block (3/4) 1] [] = Some W' /\
  gains square_world W' q /\ answers q (block 0 (1/2)) (4/5).
Proof.
  destruct square_world_ok as [K V], square_valid as [T F].
  assert (R1 : regular square_tree (block 0 (1/2))) by (apply block_regular; lra).
  assert (R2 : regular square_tree (block (3/4) 1)) by (apply block_regular; lra).
  destruct (C83_event_partial square_world 0 [block 0 (1/2); block (3/4) 1] [] _ _ _ K V T F ltac:(auto)) as (W' & q & rq & tq & E & G & _ & A).
  - cbn [map Rsum fold_right]. rewrite !block_prob by lra. lra.
  - exists W', q. split; [exact E|]. split; [exact G|].
    assert (B : answers q (block 0 (1/2)) (Rsum (map (fun c => prob_of c square_tree)
        [both_of (block 0 (1/2)) (block 0 (1/2)); both_of (block (3/4) 1) (block 0 (1/2))])
      / Rsum (map (fun e => prob_of e square_tree) [block 0 (1/2); block (3/4) 1]))%R).
    { apply A; [apply R1|]. constructor; [apply both_meet; apply R1|]. constructor; [apply both_meet; [apply R2|apply R1]|constructor]. }
    cbn [map Rsum fold_right] in B. rewrite (both_same _ _ (vt_ok _ _ _ T) (rg_ok _ _ R1)) in B. rewrite !block_prob in B by lra.
    replace (prob_of (both_of (block (3/4) 1) (block 0 (1/2))) square_tree) with 0%R in B.
    + replace (4/5)%R with ((((1 / 2 - 0) * (1 / 2 - 0)) + (0 + 0)) / (((1 / 2 - 0) * (1 / 2 - 0)) + (((1 - 3 / 4) * (1 - 3 / 4)) + 0)))%R by field. exact B.
    + symmetry. apply apart_zero; [apply T|apply T|apply R2|apply R1|]. apply apart_sym.
      pose proof (blocks_apart 0 (1/2) (3/4) 1 ltac:(lra)) as HA. inversion HA as [|x y H0 _]; subst. inversion H0; subst. assumption.
Qed.

(** Simplifying and normalising the mixture in place. *)
Example demo_world_in_place : exists W1 W2 q1 q2, w_in_place demo_world 0 OpSimplify = Some W1 /\ becomes demo_world 0 W1 q1 /\
  w_in_place demo_world 0 OpNormalize = Some W2 /\ becomes demo_world 0 W2 q2 /\
  simplify (fun _ => false) demo_graph = Some q1 /\ normalize demo_graph = Some q2.
Proof.
  destruct demo_world_ok as [K V]. pose proof (C83_simplify demo_world 0 _ K V) as X. pose proof (C83_normalize demo_world 0 _ K V) as Y.
  destruct (simplify (fun _ => false) demo_graph) as [q1|] eqn:E1; [|exfalso; clear X Y; revert E1; vm_compute; discriminate].
  destruct (normalize demo_graph) as [q2|] eqn:E2; [|exfalso; clear X Y; revert E2; unfold normalize; cbn -[logsumexp nsub]; discriminate].
  destruct X as (W1 & X1 & X2), Y as (W2 & Y1 & Y2). exists W1, W2, q1, q2. auto 8.
Qed.

Print Assumptions C83_simplify.
Print Assumptions C83_normalize.
Print Assumptions C83_marginal_in_place.
Print Assumptions C83_conditional_in_place.
Print Assumptions C83_marginal.
Print Assumptions C83_probability_partial.
Print Assumptions C83_conditional_partial.
Print Assumptions C83_event_partial.
Print Assumptions C83_event_in_place_partial.
Print Assumptions C83_impossible_event.
