(** * Properties C29, C30: translating and scaling circuits in place *)
From Coq Require Import List Arith Bool Lia Reals Lra ZArith FunctionalExtensionality.
From Verif Require Import Num Graph GraphFacts Spec SpecFacts Circuit EvalFacts VarFacts Interval GaussInt Dist DistFacts
  TreeProb TreeLocal PropertiesQuery PropertiesProb PropertiesSimplify Support SupportFacts PropertiesSupport
  Simplify Conditional Rename Copy CopyFacts Heap HeapFacts HeapOps PropertiesMarginal MoveFacts.
Import ListNotations.
Local Open Scope R_scope.

(** A circuit object [c] in the heap [H] that currently is the circuit [g] with unfolding [t]. *)
Record circuit_object (H : heap) (c : circ) (g : graph dist) (t : pc dist) : Prop := {
  co_ok : circ_ok H c;
  co_view : view H c = Some g;
  co_layered : layered_circuit g t;
  co_acyclic : acyclic g;
  co_smooth : smooth dist_vars t;
  co_leaves : all_leaves dist_ok t
}.

(** Not a circuit that consists of a single leaf. *)
Definition inner_root (g : graph dist) : Prop := exists r k, root g = Some r /\ node_kind g r = Some k /\ forall d, k <> ULeaf d.

Lemma leaf_of_tree g t r (P : dist -> Prop) : wf g -> leaves_terminal g -> acyclic g -> root g = Some r -> unfolds g r t ->
  all_leaves P t -> forall u d, node_kind g u = Some (ULeaf d) -> P d.
Proof.
  intros W LT A R U L u d K.
  destruct (reach_hereditary _ g r t u (hered_all_leaves P) LT U L) as (t' & U' & L').
  { apply root_reaches_all; auto. eapply node_kind_ids; eauto. }
  inversion U'; subst; try congruence. rewrite K in H. injection H as <-. exact L'.
Qed.

(** What a loop over all leaves does: the object becomes the circuit with the changed leaves, and still is a valid object. *)
Lemma moved_object f H c g t : circuit_object H c g t -> inner_root g -> unshared H c ->
  all_leaves (fun d => exists d', f d = Some d' /\ keeps d d' /\ dvar d' = dvar d /\ dist_ok d') t ->
  (forall d, dvar (the f d) = dvar d) ->
  exists ls, circuit_leaves (ref_graph H c) = Some ls /\
    circuit_object (h_each_leaf (h_dist_move f) H (ref_graph H c) ls) c (gmap (the f) g) (tmap (the f) t).
Proof.
  intros [K V (W & LT & r & R & G & U) A S O] (r' & k & R' & K' & NL) US L HV.
  rewrite R in R'. injection R' as <-.
  destruct (each_leaf_view f H c g r K US V W A R) as (ls & EL & EV).
  - intros d X. rewrite K' in X. injection X as ->. exact (NL d eq_refl).
  - intros u d X. destruct (leaf_of_tree g t r _ W LT A R U L u d X) as (d' & F & Kd & _). eauto.
  - exists ls. split; [exact EL|]. constructor.
    + exact (ostep_ok _ _ _ _ (each_leaf_step f H c ls K)).
    + exact EV.
    + split; [now apply gmap_wf|]. split; [now apply gmap_leaves_terminal|]. exists r.
      split; [now rewrite gmap_root|]. split; [now apply gmap_graded|now apply gmap_unfolds].
    + exact A.
    + apply (tmap_smooth (the f) dist_vars dist_vars t); [|exact S]. intros d. unfold dist_vars. now rewrite HV.
    + apply tmap_all_leaves. eapply all_leaves_impl; [|exact L]. intros d (d' & F & _ & _ & Od). unfold the. now rewrite F.
Qed.

(** ** C29 *)

(** After [translate] by the vector [tr], the likelihood at the moved point is the likelihood before at the point. *)
Definition translates (tr : nat -> R) (H : heap) (c : circ) (g : graph dist) : Prop :=
  exists H' g', h_translate (fun v => Some (tr v)) H c = Some (H', c) /\ view H' c = Some g' /\
    forall x L, likelihood_at g x L -> likelihood_at g' (fun v => x v + tr v) L.

(** Integer variables move by whole numbers. *)
Definition whole_on_integers (tr : nat -> R) (d : dist) : Prop := match d with DInt v _ => whole (tr v) | _ => True end.

Definition C29_full : Prop := forall H c g t tr, circuit_object H c g t -> all_leaves numeric t ->
  all_leaves (whole_on_integers tr) t -> translates tr H c g.

(** Proved part: circuits with an inner root whose leaf units do not share distribution objects.  Missing: circuits that
    consist of a single leaf, for which nothing moves ([C29_translate_refuted]), and shared distribution objects, which move
    once per unit ([C29_shared_refuted]).  The moved circuit is again a valid object, so translations can be repeated. *)
Theorem C29_translate_partial H c g t tr : circuit_object H c g t -> all_leaves numeric t ->
  all_leaves (whole_on_integers tr) t -> inner_root g -> unshared H c ->
  exists H' g' t', h_translate (fun v => Some (tr v)) H c = Some (H', c) /\ circuit_object H' c g' t' /\
    forall x L, likelihood_at g x L -> likelihood_at g' (fun v => x v + tr v) L.
Proof.
  intros CO N Wh IR US.
  set (f := fun d => match (fun v => Some (tr v)) (dvar d) with None => None | Some r => translate1 r d end).
  assert (LF : all_leaves (fun d => exists d', f d = Some d' /\ keeps d d' /\ dvar d' = dvar d /\ dist_ok d' /\
     forall x, ll1 d' (x + tr (dvar d)) = ll1 d x) t).
  { eapply all_leaves_impl; [|exact (all_leaves_and _ _ _ (co_leaves _ _ _ _ CO) (all_leaves_and _ _ _ N Wh))].
    intros d (O & Nd & Wd). destruct (translate1 (tr (dvar d)) d) as [d'|] eqn:E; [|destruct d; simpl in *; try discriminate; tauto].
    exists d'. split; [exact E|]. apply translate_leaf; auto. destruct d; auto. }
  destruct (moved_object f H c g t CO IR US) as (ls & EL & CO').
  { eapply all_leaves_impl; [|exact LF]. intros d (d' & A & B & C & D & _). eauto. }
  { intros d. unfold the, f. destruct d; reflexivity. }
  eexists _, _, _. split; [|split; [exact CO'|]].
  - unfold h_translate. rewrite EL. reflexivity.
  - intros x L HL. rewrite (likelihood_at_det g t x L (co_layered _ _ _ _ CO) (co_smooth _ _ _ _ CO) HL).
    replace (lik t x) with (lik (tmap (the f) t) (fun v => x v + tr v)).
    + apply likelihood_at_lik; [exact (co_layered _ _ _ _ CO')|exact (co_smooth _ _ _ _ CO')].
    + unfold lik. rewrite tmap_semN. apply semN_ext. eapply all_leaves_impl; [|exact LF].
      intros d (d' & A & _ & B & _ & C). unfold the. rewrite A, B, C. reflexivity.
Qed.

(** A circuit that is a single leaf has no leaves to loop over: translating and scaling do nothing. *)
Theorem C29_single_leaf_unchanged H c g r d tr : circ_ok H c -> view H c = Some g -> root g = Some r ->
  node_kind g r = Some (ULeaf d) -> h_translate tr H c = Some (H, c) /\ h_scale tr H c = Some (H, c).
Proof.
  intros K V R Kr. destruct (view_shape H c g K V) as (IDS & ES & KS).
  assert (Hr : In r (c_units c)) by (rewrite <- IDS; apply root_spec; exact R).
  assert (R' : root (ref_graph H c) = Some r).
  { rewrite <- R. unfold root, root_candidates. rewrite ref_ids, IDS. unfold in_edges. rewrite ES. reflexivity. }
  assert (E : circuit_leaves (ref_graph H c) = Some []).
  { unfold circuit_leaves. rewrite R', (ref_kind H c r K Hr). destruct (KS r Hr) as (k & k' & E1 & E2 & E3).
    rewrite E1. rewrite Kr in E3. injection E3 as <-. destruct k; try discriminate. reflexivity. }
  unfold h_translate, h_scale. rewrite E. split; reflexivity.
Qed.

Definition solo_heap (d : dist) : heap := mkHeap [ULeaf 0%nat] [OCont d] [].
Definition solo_circ : circ := mkCirc [0%nat] [].
Definition leaf_of (d : dist) : graph dist := mkGraph [(0%nat, ULeaf d)] [].

Lemma solo_object d : dist_ok d -> circuit_object (solo_heap d) solo_circ (leaf_of d) (PLeaf d).
Proof.
  intros O. constructor; auto.
  - split; [|split].
    + split; cbn.
      * intros s v p [|[|a]] E; discriminate.
      * intros [|[|u]] a E; try discriminate. injection E as <-. lia.
    + intros u [<-|[]]. cbn. lia.
    + repeat constructor. intros [].
  - split; [|split].
    + constructor; cbn; [repeat constructor; intros []|constructor|intros e []|intros e []].
    + intros e d0 [].
    + exists 0%nat. split; [reflexivity|]. split; [exists (fun _ => 0%nat); split; [reflexivity|intros e []]|unf].
  - exists (fun _ => 0%nat). intros e [].
  - exact I.
Qed.

Lemma likelihood_leaf d x : likelihood_at (leaf_of d) x (nexp (ll1 d (x (dvar d)))).
Proof.
  assert (E : lik (PLeaf d) x = nexp (ll1 d (x (dvar d)))) by reflexivity. rewrite <- E.
  apply likelihood_at_lik; [|exact I].
  split; [|split].
  - constructor; cbn; [repeat constructor; intros []|constructor|intros e []|intros e []].
  - intros e d0 [].
  - exists 0%nat. split; [reflexivity|]. split; [exists (fun _ => 0%nat); split; [reflexivity|intros e []]|unf].
Qed.

(** The uniform leaf over [0, 1) stays there when it is translated by 5: the likelihood at 5 is still 0. *)
Theorem C29_translate_refuted : ~ C29_full.
Proof.
  intros F. set (d := DUnif 0 (iclosed_open 0 1)).
  assert (O : dist_ok d) by (exists 0, 1; repeat split; lra).
  destruct (F _ _ _ _ (fun _ => 5) (solo_object d O) I I) as (H' & g' & E & V & T).
  destruct (C29_single_leaf_unchanged (solo_heap d) solo_circ (leaf_of d) 0%nat d (fun _ => Some 5)) as [E' _];
    [apply (solo_object d O)|reflexivity|reflexivity|reflexivity|].
  rewrite E' in E. injection E as <-. cbn in V. injection V as <-.
  pose proof (T (fun _ => 0) _ (likelihood_leaf d _)) as L1.
  pose proof (likelihood_at_det _ _ _ _ (co_layered _ _ _ _ (solo_object d O)) I L1) as E2.
  unfold lik, d in E2. cbn [semN ll1 dvar] in E2. unfold in_sint, above, below in E2. cbn [iclosed_open lo hi lc rc] in E2.
  destruct (Rleb_spec 0 0); [|lra]. destruct (Rltb_spec 0 1); [|lra]. destruct (Rleb_spec 0 (0 + 5)); [|lra].
  destruct (Rltb_spec (0 + 5) 1); [lra|]. cbn in E2. destruct (total_order_T (1 + - 0) 0) as [[?|?]|?]; try lra.
  cbn in E2. injection E2 as E2. pose proof (exp_pos (- ln (1 + - 0))). lra.
Qed.

(** Two leaf units that hold the same distribution object: it is moved twice. *)
Definition pair_heap (d : dist) : heap := mkHeap [USum; ULeaf 0%nat; ULeaf 0%nat] [OCont d] [].
Definition pair_edges : list edge := [mkEdge 0%nat 1%nat (Some (Fin (ln (1/2)))); mkEdge 0%nat 2%nat (Some (Fin (ln (1/2))))].
Definition pair_circ : circ := mkCirc [0%nat; 1%nat; 2%nat] pair_edges.
Definition pair_graph (d : dist) : graph dist := mkGraph [(0%nat, USum); (1%nat, ULeaf d); (2%nat, ULeaf d)] pair_edges.
Definition pair_tree (d : dist) : pc dist := PSum [(Fin (ln (1/2)), PLeaf d); (Fin (ln (1/2)), PLeaf d)].

Lemma pair_object d : dist_ok d -> circuit_object (pair_heap d) pair_circ (pair_graph d) (pair_tree d).
Proof.
  intros O. constructor.
  - split; [|split].
    + split; cbn.
      * intros s v p [|[|a]] E; discriminate.
      * intros [|[|[|[|u]]]] a E; try discriminate; injection E as <-; lia.
    + intros u. cbn. lia.
    + repeat constructor; cbn; intuition lia.
  - reflexivity.
  - split; [|split].
    + concrete_wf.
    + intros e d0 H. repeat (destruct H as [<-|H]; [cbn; discriminate|]). destruct H.
    + exists 0%nat. split; [reflexivity|]. split; [|unfold pair_tree; unf].
      exists (fun u => if (u =? 0)%nat then 0%nat else 1%nat). split; [reflexivity|]. intros e H _.
      repeat (destruct H as [<-|H]; [reflexivity|]). destruct H.
  - exists (fun u => 1 - u)%nat. on_edges.
  - cbn. unfold dist_vars. intuition.
  - cbn. tauto.
Qed.

Theorem C29_shared_refuted : ~ (forall H c g t tr, circuit_object H c g t -> all_leaves numeric t ->
  all_leaves (whole_on_integers tr) t -> inner_root g -> translates tr H c g).
Proof.
  intros F. set (d := DUnif 0 (iclosed_open 0 1)).
  assert (O : dist_ok d) by (exists 0, 1; repeat split; lra).
  destruct (F _ _ _ _ (fun _ => 5) (pair_object d O)) as (H' & g' & E & V & T); try (cbn; tauto).
  { exists 0%nat, USum. repeat split. discriminate. }
  unfold h_translate in E. cbn in E. injection E as <-. cbn in V. injection V as <-.
  set (d' := DUnif 0 (shift_sint 5 (shift_sint 5 (iclosed_open 0 1)))) in *.
  assert (O' : dist_ok d') by (exists (0 + 5 + 5), (1 + 5 + 5); repeat split; lra).
  pose proof (pair_object d' O') as CO'. pose proof (pair_object d O) as CO.
  pose proof (T (fun _ => 0) _ (likelihood_at_lik _ _ _ (co_layered _ _ _ _ CO) (co_smooth _ _ _ _ CO))) as L1.
  pose proof (likelihood_at_det _ _ _ _ (co_layered _ _ _ _ CO') (co_smooth _ _ _ _ CO') L1) as E2.
  unfold lik, d', d in E2. cbn [pair_tree semN map fst snd ll1 dvar] in E2. unfold in_sint, above, below in E2.
  cbn [shift_sint iclosed_open lo hi lc rc nadd] in E2.
  destruct (Rleb_spec 0 0); [|lra]. destruct (Rltb_spec 0 1); [|lra]. destruct (Rleb_spec (0 + 5 + 5) (0 + 5)); [lra|].
  cbn in E2. destruct (total_order_T (1 + - 0) 0) as [[?|?]|?]; try lra.
  cbn in E2. injection E2 as E2. pose proof (exp_pos (- ln (1 + - 0))) as P1. pose proof (exp_pos (ln (1/2))) as P2. nra.
Qed.

(** Worked example: the demo circuit (Gaussian, uniform and integer leaves), moved by 1/2 and by 3. *)
Definition demo_heap : heap :=
  mkHeap [USum; UProd; UProd; ULeaf 0; ULeaf 1; ULeaf 2; ULeaf 3]%nat
         [OCont (DGauss 0 1 2); ODisc false 1 0%nat; OCont (DUnif 0 (iclosed_open 0 4)); ODisc false 1 1%nat]
         [[(1%Z, 1/3); (4%Z, 2/3)]; [(4%Z, 1)]].
Definition demo_circ : circ := mkCirc [0; 1; 2; 3; 4; 5; 6]%nat (g_edges demo_graph).

Lemma demo_object : circuit_object demo_heap demo_circ demo_graph demo_tree.
Proof.
  destruct demo_ok as (L & _ & O & S & _). constructor; auto.
  - split; [|split].
    + split; cbn.
      * intros s v p a E. do 4 (destruct a as [|a]; [cbn in E; try discriminate; injection E as _ _ <-; lia|]). destruct a; discriminate.
      * intros u a E. do 7 (destruct u as [|u]; [cbn in E; try discriminate; injection E as <-; lia|]). destruct u; discriminate.
    + intros u. cbn. lia.
    + repeat constructor; cbn; intuition discriminate.
  - exists (fun u => 6 - u)%nat. on_edges.
Qed.

Lemma demo_unshared : unshared demo_heap demo_circ.
Proof.
  intros u v a Hu Hv Eu Ev. cbn in Hu, Hv.
  repeat (destruct Hu as [<-|Hu]; [cbn in Eu; try discriminate; injection Eu as <-;
    repeat (destruct Hv as [<-|Hv]; [cbn in Ev; try discriminate; try injection Ev as Ev; try lia|]); try (destruct Hv)|]).
  destruct Hu.
Qed.

Lemma demo_inner : inner_root demo_graph.
Proof. exists 0%nat, USum. repeat split. discriminate. Qed.

Definition demo_move (v : nat) : R := if (v =? 0)%nat then 1/2 else 3.

Example demo_translated : translates demo_move demo_heap demo_circ demo_graph.
Proof.
  destruct (C29_translate_partial demo_heap demo_circ demo_graph demo_tree demo_move) as (H' & g' & t' & E & CO & T).
  - exact demo_object.
  - apply demo_ok.
  - cbn. repeat split; exists 3%Z; reflexivity.
  - exact demo_inner.
  - exact demo_unshared.
  - exists H', g'. split; [exact E|]. split; [exact (co_view _ _ _ _ CO)|exact T].
Qed.

(** ** C30 *)

(** The event with every finite bound multiplied by the factor. *)
Definition stretch (s : R) (A : evset) : evset :=
  let m x := match x with Fin a => Fin (a * s) | y => y end in
  match A with EInt A => EInt (map (fun i => mkSint (m (lo i)) (m (hi i)) (lc i) (rc i)) A) | ESym l => ESym l end.

Lemma stretch_scale s A : 0 < s -> scale_evset s A = stretch s A.
Proof.
  intros P. destruct A as [A|l]; [|reflexivity]. cbn. f_equal. apply map_ext. intros i. unfold scale_sint.
  destruct (lo i), (hi i); cbn; rewrite ?(nscale_inf_pos s P), ?(nscale_inf_neg (- s)) by lra; reflexivity.
Qed.

Lemma stretch_answers g s e p : (forall v, 0 < s v) ->
  answers g (fun v => stretch (s v) (e v)) p <-> answers g (fun v => scale_evset (s v) (e v)) p.
Proof.
  intros P. replace (fun v => stretch (s v) (e v)) with (fun v => scale_evset (s v) (e v)); [reflexivity|].
  apply functional_extensionality. intros v. apply stretch_scale. apply P.
Qed.

(** After [scale] by the factors [s], the probability of the stretched event is the probability before of the event. *)
Definition scales (s : nat -> R) (H : heap) (c : circ) (g : graph dist) (t : pc dist) : Prop :=
  exists H' g', h_scale (fun v => Some (s v)) H c = Some (H', c) /\ view H' c = Some g' /\
    forall e p, event_ok t e -> answers g e p -> answers g' (fun v => stretch (s v) (e v)) p.

Definition C30_full : Prop := forall H c g t s, circuit_object H c g t -> all_sums (Forall lw_ok) t ->
  all_leaves (whole_on_integers s) t -> (forall v, 0 < s v) -> scales s H c g t.

(** Proved part: circuits with an inner root, unshared distribution objects and uniform, integer and symbolic leaves (for
    symbolic leaves nothing changes and nothing has to).  Missing: single leaves ([C30_single_leaf_refuted]), Dirac leaves
    ([C30_dirac_refuted]), Gaussian and truncated Gaussian leaves ([C30_gaussian_refuted]): there the claim is false. *)
Theorem C30_scale_partial H c g t s : circuit_object H c g t -> all_sums (Forall lw_ok) t -> (forall v, 0 < s v) ->
  all_leaves (fun d => scalable (s (dvar d)) d) t -> inner_root g -> unshared H c ->
  exists H' g' t', h_scale (fun v => Some (s v)) H c = Some (H', c) /\ circuit_object H' c g' t' /\
    forall e p, event_ok t e -> answers g e p -> answers g' (fun v => stretch (s v) (e v)) p.
Proof.
  intros CO LW Pos Sc IR US.
  set (f := fun d => match (fun v => Some (s v)) (dvar d) with None => None | Some r => scale1 r d end).
  assert (LF : all_leaves (fun d => exists d', f d = Some d' /\ keeps d d' /\ dvar d' = dvar d /\ dist_ok d' /\
     forall A, evset_ok d A -> evset_ok d' (scale_evset (s (dvar d)) A) /\ probR d' (scale_evset (s (dvar d)) A) = probR d A) t).
  { eapply all_leaves_impl; [|exact (all_leaves_and _ _ _ (co_leaves _ _ _ _ CO) Sc)].
    intros d (O & Sd). destruct (scale1 (s (dvar d)) d) as [d'|] eqn:E; [|destruct d; simpl in *; try discriminate; tauto].
    exists d'. split; [exact E|]. apply scale_leaf; auto. }
  destruct (moved_object f H c g t CO IR US) as (ls & EL & CO').
  { eapply all_leaves_impl; [|exact LF]. intros d (d' & A & B & C & D & _). eauto. }
  { intros d. unfold the, f. destruct d; reflexivity. }
  eexists _, _, _. split; [|split; [exact CO'|]].
  - unfold h_scale. rewrite EL. reflexivity.
  - intros e p He Ha.
    apply stretch_answers; [exact Pos|].
    assert (Ep : p = semR (fun d => probR d (e (dvar d))) t).
    { pose proof (answers_semR g t e (co_layered _ _ _ _ CO) LW (co_leaves _ _ _ _ CO) He) as Ha'.
      destruct (Ha empty_store) as [s1 E1], (Ha' empty_store) as [s2 E2]. rewrite E1 in E2. now injection E2. }
    replace p with (semR (fun d => probR d (scale_evset (s (dvar d)) (e (dvar d)))) (tmap (the f) t)).
    + apply (answers_semR _ _ (fun v => scale_evset (s v) (e v)) (co_layered _ _ _ _ CO')).
      * now apply tmap_all_sums.
      * exact (co_leaves _ _ _ _ CO').
      * unfold event_ok. apply tmap_all_leaves. eapply all_leaves_impl; [|exact (all_leaves_and _ _ _ LF He)].
        intros d [(d' & A & _ & B & _ & C) Ed]. unfold the. rewrite A, B. now apply C.
    + rewrite Ep, tmap_semR. apply semR_ext. eapply all_leaves_impl; [|exact (all_leaves_and _ _ _ LF He)].
      intros d [(d' & A & _ & B & _ & C) Ed]. unfold the. rewrite A, B. now apply C.
Qed.

(** A mixture of one component. *)
Definition one_heap (d : dist) : heap := mkHeap [USum; ULeaf 0%nat] [OCont d] [].
Definition one_edges : list edge := [mkEdge 0%nat 1%nat (Some (Fin 0))].
Definition one_circ : circ := mkCirc [0%nat; 1%nat] one_edges.
Definition one_graph (d : dist) : graph dist := mkGraph [(0%nat, USum); (1%nat, ULeaf d)] one_edges.
Definition one_tree (d : dist) : pc dist := PSum [(Fin 0, PLeaf d)].

Lemma one_object d : dist_ok d -> circuit_object (one_heap d) one_circ (one_graph d) (one_tree d).
Proof.
  intros O. constructor.
  - split; [|split].
    + split; cbn.
      * intros s v p [|[|a]] E; discriminate.
      * intros [|[|[|u]]] a E; try discriminate; injection E as <-; lia.
    + intros u. cbn. lia.
    + repeat constructor; cbn; intuition lia.
  - reflexivity.
  - split; [|split].
    + concrete_wf.
    + intros e d0 H. repeat (destruct H as [<-|H]; [cbn; discriminate|]). destruct H.
    + exists 0%nat. split; [reflexivity|]. split; [|unfold one_tree; unf].
      exists (fun u => u). split; [reflexivity|]. intros e H _. repeat (destruct H as [<-|H]; [reflexivity|]). destruct H.
  - exists (fun u => 1 - u)%nat. on_edges.
  - cbn. unfold dist_vars. intuition.
  - cbn. tauto.
Qed.

Lemma answers_det g e p q : answers g e p -> answers g e q -> p = q.
Proof. intros A B. destruct (A empty_store) as [s1 E1], (B empty_store) as [s2 E2]. congruence. Qed.

Lemma one_answers d A : dist_ok d -> evset_ok d A -> answers (one_graph d) (fun _ => A) (probR d A).
Proof.
  intros O E. pose proof (one_object d O) as CO.
  replace (probR d A) with (semR (fun d => probR d ((fun _ => A) (dvar d))) (one_tree d)).
  - apply answers_semR; [exact (co_layered _ _ _ _ CO)|cbn; repeat constructor|exact (co_leaves _ _ _ _ CO)|cbn; tauto].
  - cbn. rewrite exp_0. lra.
Qed.

(** The claim restricted to circuits with an inner root and leaves of one kind. *)
Definition C30_for (P : dist -> Prop) : Prop := forall H c g t s, circuit_object H c g t -> all_sums (Forall lw_ok) t ->
  all_leaves P t -> inner_root g -> unshared H c -> (forall v, 0 < s v) -> scales s H c g t.

Lemma one_unshared d : unshared (one_heap d) one_circ.
Proof. intros [|[|u]] [|[|v]] a; cbn; intuition; try discriminate; try lia. Qed.

(** [scale] of a Dirac distribution adds the factor to the location (D.py:621-622): the point mass at 1, scaled by 3,
    is at 4 and not at 3. *)
Theorem C30_dirac_refuted : ~ C30_for (fun d => exists v loc, d = DDirac v loc (Fin 1)).
Proof.
  intros F. set (d := DDirac 0 1 (Fin 1)). assert (O : dist_ok d) by (cbn; lra).
  destruct (F _ _ _ _ (fun _ => 3) (one_object d O)) as (H' & g' & E & V & T).
  - cbn. repeat constructor.
  - cbn. split; [|exact I]. unfold d. eauto.
  - exists 0%nat, USum. repeat split. discriminate.
  - apply one_unshared.
  - intros _. lra.
  - unfold h_scale in E. cbn in E. injection E as <-. cbn in V. injection V as <-.
    assert (Ok : forall x, interval_ok [iclosed x x]).
    { intros x. split; [|cbn; tauto]. constructor; [|constructor]. unfold sint_ok. cbn. repeat split; try discriminate. right. exists x. auto. }
    assert (A : evset_ok d (EInt [iclosed 1 1])) by (split; [apply Ok|discriminate]).
    pose proof (T (fun _ => EInt [iclosed 1 1]) _ (conj A I) (one_answers d _ O A)) as Q. apply (proj1 (stretch_answers _ (fun _ => 3) (fun _ => EInt [iclosed 1 1]) _ (fun _ => ltac:(lra)))) in Q. cbn [scale_evset map] in Q.
    set (d' := DDirac 0 (1 + 3) (Fin 1)) in *. change (scale_sint 3 (iclosed 1 1)) with (iclosed (1 * 3) (1 * 3)) in Q.
    assert (A' : evset_ok d' (EInt [iclosed (1 * 3) (1 * 3)])) by (split; [apply Ok|discriminate]).
    pose proof (answers_det _ _ _ _ Q (one_answers d' _ O A')) as X.
    cbn in X. unfold in_sint, above, below, iclosed in X. cbn in X. unfold Rleb in X.
    repeat destruct (Rle_dec _ _) in X; try lra; cbn in X; lra.
Qed.

(** [scale] of a Gaussian calls the float attribute of that name (G.py:30): it raises and nothing is scaled.  The
    probability of (-oo, 1] becomes that of (-oo, 3] only if the distribution is stretched. *)
Theorem C30_gaussian_refuted : ~ C30_for (fun d => exists v mu sg, d = DGauss v mu sg).
Proof.
  intros F. set (d := DGauss 0 0 1). assert (O : dist_ok d) by (cbn; lra).
  destruct (F _ _ _ _ (fun _ => 3) (one_object d O)) as (H' & g' & E & V & T).
  - cbn. repeat constructor.
  - cbn. split; [|exact I]. unfold d. eauto.
  - exists 0%nat, USum. repeat split. discriminate.
  - apply one_unshared.
  - intros _. lra.
  - unfold h_scale in E. cbn in E. injection E as <-. cbn in V. injection V as <-.
    set (B := fun x => mkSint NInf (Fin x) false true).
    assert (Ok : forall x, evset_ok d (EInt [B x])).
    { intros x. split; [|discriminate]. split; [|cbn; tauto]. constructor; [|constructor]. unfold sint_ok. cbn.
      repeat split; try discriminate. left. exact I. }
    pose proof (T (fun _ => EInt [B 1]) _ (conj (Ok 1) I) (one_answers d _ O (Ok 1))) as Q. apply (proj1 (stretch_answers _ (fun _ => 3) (fun _ => EInt [B 1]) _ (fun _ => ltac:(lra)))) in Q. cbn [scale_evset map] in Q.
    assert (EB : scale_sint 3 (B 1) = B (1 * 3)).
    { unfold scale_sint, B. cbn. rewrite nscale_inf_neg by lra. reflexivity. }
    rewrite EB in Q. pose proof (answers_det _ _ _ _ Q (one_answers d _ O (Ok (1 * 3)))) as X.
    cbn in X. unfold delta in X. cbn in X.
    assert (PhiR ((1 - 0) / 1) < PhiR ((1 * 3 - 0) / 1)) by (apply PhiR_strict; lra). lra.
Qed.

Theorem C30_single_leaf_refuted : ~ (forall H c g t s, circuit_object H c g t -> all_sums (Forall lw_ok) t ->
  all_leaves (fun d => scalable (s (dvar d)) d) t -> unshared H c -> (forall v, 0 < s v) -> scales s H c g t).
Proof.
  intros F. set (d := DUnif 0 (iclosed_open 0 1)).
  assert (O : dist_ok d) by (exists 0, 1; repeat split; lra).
  destruct (F _ _ _ _ (fun _ => 2) (solo_object d O) I I) as (H' & g' & E & V & T).
  { intros [|u] [|v] a; cbn; intuition; try discriminate; try lia. }
  { intros _. lra. }
  destruct (C29_single_leaf_unchanged (solo_heap d) solo_circ (leaf_of d) 0%nat d (fun _ => Some 2)) as [_ E'];
    [apply (solo_object d O)|reflexivity|reflexivity|reflexivity|].
  rewrite E' in E. injection E as <-. cbn in V. injection V as <-.
  assert (Ok : forall x, 0 < x -> evset_ok d (EInt [iclosed 0 x])).
  { intros x P. split; [|discriminate]. split; [|cbn; tauto]. constructor; [|constructor]. unfold sint_ok. cbn.
    repeat split; try discriminate. left. exact P. }
  assert (AN : forall x, 0 < x -> answers (leaf_of d) (fun _ => EInt [iclosed 0 x]) (probR d (EInt [iclosed 0 x]))).
  { intros x P. exact (answers_semR (leaf_of d) (PLeaf d) (fun _ => EInt [iclosed 0 x]) (co_layered _ _ _ _ (solo_object d O)) I O (Ok x P)). }
  assert (P : 0 < 1 / 4) by lra.
  pose proof (T (fun _ => EInt [iclosed 0 (1/4)]) _ (Ok _ P) (AN _ P)) as Q. apply (proj1 (stretch_answers _ (fun _ => 2) (fun _ => EInt [iclosed 0 (1/4)]) _ (fun _ => ltac:(lra)))) in Q. cbn [scale_evset map] in Q.
  change (scale_sint 2 (iclosed 0 (1/4))) with (iclosed (0 * 2) (1/4 * 2)) in Q. replace (0 * 2) with 0 in Q by lra.
  assert (P' : 0 < 1 / 4 * 2) by lra.
  pose proof (answers_det _ _ _ _ Q (AN _ P')) as X. cbn in X. unfold delta in X. cbn in X.
  assert (Q1 : forall y, (y - 0) / (1 - 0) = y) by (intros; field). rewrite !Q1 in X.
  rewrite !Rmax_right, !Rmin_right in X by (rewrite ?Rmax_right; lra). lra.
Qed.

Theorem C30_scale_refuted : ~ C30_full.
Proof.
  intros F. apply C30_dirac_refuted. intros H c g t s CO LW K _ _ P. apply F; auto.
  eapply all_leaves_impl; [|exact K]. intros d (v & loc & ->). exact I.
Qed.

(** Worked example: a product of a uniform leaf and an integer leaf, scaled by 3/2 and by 2. *)
Definition box_heap : heap :=
  mkHeap [UProd; ULeaf 0; ULeaf 1]%nat [OCont (DUnif 0 (iclosed_open 0 4)); ODisc false 1 0%nat] [[(1%Z, 1/3); (4%Z, 2/3)]].
Definition box_edges : list edge := [mkEdge 0 1 None; mkEdge 0 2 None]%nat.
Definition box_circ : circ := mkCirc [0; 1; 2]%nat box_edges.
Definition box_tree : pc dist := PProd [PLeaf (DUnif 0 (iclosed_open 0 4)); PLeaf (DInt 1 [(1%Z, 1/3); (4%Z, 2/3)])].
Definition box_graph : graph dist :=
  mkGraph [(0%nat, UProd); (1%nat, ULeaf (DUnif 0 (iclosed_open 0 4))); (2%nat, ULeaf (DInt 1 [(1%Z, 1/3); (4%Z, 2/3)]))] box_edges.

Lemma box_object : circuit_object box_heap box_circ box_graph box_tree.
Proof.
  constructor.
  - split; [|split].
    + split; cbn.
      * intros s v p [|[|[|a]]] E; try discriminate. injection E as _ _ <-. lia.
      * intros [|[|[|[|u]]]] a E; try discriminate; injection E as <-; lia.
    + intros u. cbn. lia.
    + repeat constructor; cbn; intuition lia.
  - reflexivity.
  - split; [|split].
    + concrete_wf.
    + intros e d0 H. repeat (destruct H as [<-|H]; [cbn; discriminate|]). destruct H.
    + exists 0%nat. split; [reflexivity|]. split; [|unfold box_tree; unf].
      exists (fun u => if (u =? 0)%nat then 0%nat else 1%nat). split; [reflexivity|]. intros e H _.
      repeat (destruct H as [<-|H]; [reflexivity|]). destruct H.
  - exists (fun u => 1 - u)%nat. on_edges.
  - cbn. tauto.
  - cbn. repeat split; auto; try lra; try (repeat constructor; cbn; try lra; intuition discriminate). exists 0, 4. repeat split; lra.
Qed.

Example box_scaled : scales (fun v => if (v =? 0)%nat then 3/2 else 2) box_heap box_circ box_graph box_tree.
Proof.
  destruct (C30_scale_partial box_heap box_circ box_graph box_tree (fun v => if (v =? 0)%nat then 3/2 else 2))
    as (H' & g' & t' & E & CO & T).
  - exact box_object.
  - cbn. tauto.
  - intros v. destruct (v =? 0)%nat; lra.
  - cbn. repeat split; auto. exists 2%Z. reflexivity.
  - exists 0%nat, UProd. repeat split. discriminate.
  - intros [|[|[|u]]] [|[|[|v]]] a; cbn; intuition; try discriminate; try lia; congruence.
  - exists H', g'. split; [exact E|]. split; [exact (co_view _ _ _ _ CO)|exact T].
Qed.

Print Assumptions C29_translate_partial.
Print Assumptions C29_single_leaf_unchanged.
Print Assumptions C29_translate_refuted.
Print Assumptions C29_shared_refuted.
Print Assumptions C30_scale_partial.
Print Assumptions C30_dirac_refuted.
Print Assumptions C30_gaussian_refuted.
Print Assumptions C30_single_leaf_refuted.
Print Assumptions C30_scale_refuted.
