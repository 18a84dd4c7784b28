(** * Property C41: a mixture of uniforms as a deterministic mixture *)
From Coq Require Import List Arith Bool Lia ZArith Reals Lra Permutation Sorted.
From Verif Require Import Num Graph GraphFacts Spec SpecFacts Circuit EvalFacts VarFacts Interval Dist DistFacts Simplify ModeFacts TreeProb TreeLocal Layout LayoutFacts Star
  Support SupportFacts PropertiesProb PropertiesSupport BayesNet FromMixture Nyga NygaFacts UniformStar.
Import ListNotations.
Local Set Bullet Behavior "Strict Subproofs".
Local Open Scope R_scope.

(** ** The specification *)
(** Every unit of the circuit is a sum unit or a uniform distribution over [v]. *)
Definition uniforms (v : nat) (g : graph dist) : Prop := forall u k, node_kind g u = Some k ->
  match k with
  | USum => True
  | ULeaf (DUnif w i) => w = v /\ exists a b, lo i = Fin a /\ hi i = Fin b /\ a < b
  | _ => False
  end.

(** ** The proof *)
Definition unif_over (v : nat) (d : dist) : Prop := exists i, d = DUnif v i /\ bounded i.

Lemma uniforms_mixture v g u t : uniforms v g -> unfolds g u t -> mixture (unif_over v) t.
Proof.
  intros H Ht. revert u t Ht. refine (unfolds_ind' g _ _ _ _); [intros u d Hk|intros u ts Hk Hne HF|intros u ts Hk HF]; cbn [mixture].
  - specialize (H _ _ Hk). cbn in H. destruct d; try contradiction. destruct H as [-> H]. eexists. split; [reflexivity|exact H].
  - apply fold_and_Forall. clear - HF. induction HF as [|e [w t] es ts [A1 [A2 A3]] HF IH]; constructor; auto.
  - exact (H _ _ Hk).
Qed.

Lemma unif_dvar v d : unif_over v d -> dvar d = v.
Proof. now intros (i & -> & _). Qed.

Lemma unif_mentions v t : sums_nonempty t -> mixture (unif_over v) t -> forall w, mentions dist_vars t w <-> w = v.
Proof.
  induction t as [d|l IH|l IH] using pc_ind'; cbn [mixture sums_nonempty mentions]; intros Hs Hm w; [| |tauto].
  - unfold dist_vars. rewrite (unif_dvar v d Hm). simpl. intuition.
  - destruct Hs as [Hne Hs]. rewrite Forall_map_id in Hs; apply fold_and_Forall in Hm. rewrite fold_or_Exists, Exists_exists, !Forall_forall in *. split.
    + intros (wt & Hin & Hw). exact (proj1 (IH wt Hin (Hs wt Hin) (Hm wt Hin) w) Hw).
    + intros ->. destruct l as [|wt l]; [tauto|]. exists wt. split; [now left|]. apply IH; auto; [now left|apply Hs; now left|apply Hm; now left].
Qed.

Lemma unif_smooth v t : sums_nonempty t -> mixture (unif_over v) t -> smooth dist_vars t.
Proof.
  induction t as [d|l IH|l IH] using pc_ind'; cbn [mixture sums_nonempty smooth]; intros Hs Hm; [auto| |tauto].
  assert (Hv := unif_mentions v (PSum l) Hs Hm). destruct Hs as [Hne Hs]. rewrite Forall_map_id in Hs; apply fold_and_Forall in Hm. split.
  - intros w Hw. apply Hv in Hw. subst w. apply fold_and_Forall. rewrite Forall_forall in *. intros wt Hin. now apply (proj2 (unif_mentions v (snd wt) (Hs wt Hin) (Hm wt Hin) v)).
  - apply fold_and_Forall. rewrite Forall_forall in *. auto.
Qed.

(** The leaves of the graph and their bounds. *)
Lemma leaves_of_In (g : graph dist) d : In d (leaves_of g) <-> exists u, In (u, ULeaf d) (g_nodes g).
Proof.
  unfold leaves_of. rewrite in_flat_map. split.
  - intros ([u k] & Hin & Hd). cbn [snd] in Hd. destruct k; try contradiction. destruct Hd as [<-|[]]. eauto.
  - intros (u & Hin). exists (u, ULeaf d). split; [exact Hin|now left].
Qed.

Lemma unif_points l : Forall (fun d => exists v i, d = DUnif v i /\ bounded i) l -> exists ps, mapM leaf_points l = Some ps /\
  forall v i, In (DUnif v i) l -> In (fst (ends i)) (concat ps) /\ In (snd (ends i)) (concat ps).
Proof.
  unfold mapM. induction 1 as [|d l (v & i & -> & a & b & E1 & E2 & Hab) _ (ps & E & H)]; [exists []; split; [reflexivity|intros v i []]|].
  rewrite E. cbn [leaf_points]. rewrite E1, E2. eexists. split; [reflexivity|]. intros w j [X|X]; cbn [concat].
  - injection X as -> ->. unfold ends. rewrite E1, E2. cbn. auto.
  - destruct (H w j X). cbn. auto.
Qed.

(** Cells. *)
Lemma cells_bounded l : ascending l -> Forall bounded (uniform_cells l).
Proof.
  induction l as [|p [|q l] IH]; intros Hs; try constructor. pose proof Hs as [Hp Hq]. destruct (uniform_cells_cons p q l) as (c & E & E1 & E2). rewrite E. constructor; auto.
  exists p, q. repeat split; auto. apply Hp. now left.
Qed.

Lemma cells_above l p x c : ascending (p :: l) -> In c (uniform_cells (p :: l)) -> in_sint c x = true -> p <= x.
Proof.
  revert p. induction l as [|q l IH]; intros p Hs Hc Hx; [destruct Hc|]. pose proof Hs as [Hp Hq]. assert (p < q) by (apply Hp; now left).
  assert (L : forall i, i = iclosed p q \/ i = iclosed_open p q -> in_sint i x = true -> p <= x).
  { intros i [->| ->]; unfold in_sint, above, below; cbn; rb; try discriminate; lra. }
  destruct l as [|r l]; cbn [uniform_cells] in Hc.
  - destruct Hc as [<-|[]]. apply (L (iclosed p q)); auto.
  - destruct Hc as [<-|Hc]; [apply (L (iclosed_open p q)); auto|]. specialize (IH q Hq Hc Hx). lra.
Qed.

Lemma cells_disjoint l : ascending l -> disjointed (uniform_cells l).
Proof.
  induction l as [|p [|q l] IH]; intros Hs; try exact I. pose proof Hs as [Hp Hq]. specialize (IH Hq). destruct l as [|r l]; [cbn; split; [intros j []|exact I]|].
  change (disjointed (iclosed_open p q :: uniform_cells (q :: r :: l))). split; [|exact IH]. intros j Hj x [X Y]. apply (cells_above _ _ _ _ Hq Hj) in Y.
  revert X. unfold in_sint, above, below. cbn. rb; try discriminate; lra.
Qed.

(** The loop adds one leaf per cell. *)
Lemma mount_cells g v (p : sint -> R) cells : (forall c, In c cells -> answers g (fun _ => EInt [c]) (p c)) -> forall l,
  foldM (mount_cell g v) cells (layout (star l), S (length l)) =
  Some (layout (star (l ++ map (fun c => (nlog (Fin (p c)), DUnif v c)) cells)), S (length l + length cells)).
Proof.
  induction cells as [|c cells IH]; intros Hc l; cbn [foldM map length]; [now rewrite app_nil_r, Nat.add_0_r|].
  unfold mount_cell at 1. destruct (Hc c (or_introl eq_refl) empty_store) as (st & ->). rewrite star_add.
  replace (S (S (length l))) with (S (length (l ++ [(nlog (Fin (p c)), DUnif v c)]))) by (rewrite app_length; cbn; lia).
  rewrite IH by (intros; apply Hc; now right). rewrite <- app_assoc, app_length. cbn [app length]. do 2 f_equal. lia.
Qed.

Lemma some_leaf P (Q : dist -> Prop) t : sums_nonempty t -> mixture P t -> all_leaves Q t -> exists d, Q d.
Proof.
  induction t as [d|l IH|l IH] using pc_ind'; cbn [mixture sums_nonempty all_leaves]; intros Hs Hm Hq; [eauto| |tauto].
  destruct Hs as [Hne Hs]. rewrite Forall_map_id in Hs; apply fold_and_Forall in Hm, Hq. destruct l as [|wt l]; [contradiction|].
  apply (Forall_inv IH); [exact (Forall_inv Hs)|exact (Forall_inv Hm)|exact (Forall_inv Hq)].
Qed.

Lemma cell_ok c : bounded c -> interval_ok [c].
Proof.
  intros (a & b & E1 & E2 & Hab). split; [constructor; [|constructor]|split; [intros j []|exact I]].
  unfold sint_ok. rewrite E1, E2. repeat split; try discriminate. left. exact Hab.
Qed.

Lemma uniform_measure v i pts A : bounded i -> ascending pts -> In (fst (ends i)) pts -> In (snd (ends i)) pts -> Forall sint_ok A ->
  Rsum (map (fun c => measure (cdfR (DUnif v c)) A * delta (cdfR (DUnif v i)) c) (uniform_cells pts)) = measure (cdfR (DUnif v i)) A.
Proof.
  intros Hi Hp H1 H2. unfold measure. induction 1 as [|j A Hj HA IH]; cbn [map].
  - cbn [Rsum fold_right]. apply Rsum_zero. intros. lra.
  - rewrite Rsum_cons, <- IH. change (delta (cdfR (DUnif v i)) j) with (cdfR (DUnif v i) (hi j) - cdfR (DUnif v i) (lo j)). destruct Hj as (N1 & _ & N2 & _).
    rewrite (uniform_split v v i pts (hi j)), (uniform_split v v i pts (lo j)) by auto.
    rewrite (Rsum_ext _ (fun c => (cdfR (DUnif v c) (hi j) * delta (cdfR (DUnif v i)) c + - 1 * (cdfR (DUnif v c) (lo j) * delta (cdfR (DUnif v i)) c)) + Rsum (map (delta (cdfR (DUnif v c))) A) * delta (cdfR (DUnif v i)) c)).
    + rewrite !Rsum_plus, Rsum_scal. lra.
    + intros c _. rewrite Rsum_cons. change (delta (cdfR (DUnif v c)) j) with (cdfR (DUnif v c) (hi j) - cdfR (DUnif v c) (lo j)). ring.
Qed.

Section C41.
Variables (g : graph dist) (t : pc dist) (v : nat).
Hypothesis Hlay : layered_circuit g t.
Hypothesis Hu : uniforms v g.
Hypothesis Hw : all_sums (Forall lw_ok) t.

(** The call succeeds, the result has the same variable, passes the determinism check, and answers every event like the given mixture. *)
Theorem C41_from_uniform_mixture : exists h, from_uniform_mixture g = Some h /\ circuit_variables dist_vars h = Some [v] /\
  (exists st, is_deterministic h empty_store = Some (true, st)) /\
  forall e A, e v = EInt A -> interval_ok A -> A <> [] -> exists p, answers g e p /\ answers h e p.
Proof.
  pose proof Hlay as [Hwf [Hlt [r [Hr [Hg Ht]]]]]. assert (Hm := uniforms_mixture v g r t Hu Ht). assert (Hsn := unfolds_sums_nonempty _ _ _ Ht).
  assert (Hok : all_leaves dist_ok t). { eapply all_leaves_impl; [|exact (mixture_leaves _ _ Hm)]. cbn. intros d (i & -> & Hi). exact Hi. }
  assert (Hans : forall A, interval_ok A -> A <> [] -> answers g (fun _ => EInt A) (semR (fun d => probR d (EInt A)) t)).
  { intros A HA Hne. apply (answers_semR g t (fun _ => EInt A)); auto. unfold event_ok. eapply all_leaves_impl; [|exact (mixture_leaves _ _ Hm)]. cbn. intros d (i & -> & Hi). cbn. auto. }
  destruct (circuit_variables_spec dist_vars g r t Hr Ht (unif_smooth v t Hsn Hm)) as (vs & Ev & Hsort & Hvs).
  assert (Evs : vs = [v]).
  { assert (V : forall w, In w vs <-> w = v) by (intros w; rewrite Hvs; now apply unif_mentions). destruct vs as [|a [|b vs]].
    - destruct (proj2 (V v) eq_refl).
    - f_equal. apply V. now left.
    - exfalso. assert (a = v) by (apply V; now left). assert (b = v) by (apply V; right; now left). inversion Hsort as [|? ? ? F]; subst. inversion F; subst. lia. }
  assert (HL : Forall (fun d => exists w i, d = DUnif w i /\ bounded i) (leaves_of g)).
  { apply Forall_forall. intros d Hd. apply leaves_of_In in Hd. destruct Hd as (u & Hin). assert (K : node_kind g u = Some (ULeaf d)) by (apply node_kind_NoDup; [apply Hwf|exact Hin]).
    specialize (Hu u _ K). destruct d; try contradiction. destruct Hu as [-> Hb]. eauto. }
  destruct (unif_points _ HL) as (ps & Eps & Hps). set (pts := map fst (np_unique (concat ps))).
  assert (Hasc : ascending pts) by apply unique_ascending.
  assert (Hb := cells_bounded pts Hasc). assert (Hd := cells_disjoint pts Hasc).
  assert (Hin : all_leaves (fun d => exists i, d = DUnif v i /\ bounded i /\ In (fst (ends i)) pts /\ In (snd (ends i)) pts) t).
  { assert (X : all_leaves (fun d => In d (leaves_of g)) t).
    { eapply leaves_back; [|exact Ht]. intros u d Hk. apply leaves_of_In. exists u. now apply node_kind_In. }
    eapply all_leaves_impl; [|exact (all_leaves_and _ _ _ (mixture_leaves _ _ Hm) X)]. cbn. intros d [(i & -> & Hi) HI]. exists i. destruct (Hps _ _ HI). unfold pts. rewrite !unique_In. auto. }
  assert (Hcne : uniform_cells pts <> []).
  { destruct (some_leaf _ _ t Hsn Hm Hin) as (d & i & -> & (a & b & E1 & E2 & Hab) & H1 & H2). unfold ends in H1, H2. rewrite E1, E2 in H1, H2. cbn [fst snd] in H1, H2.
    destruct pts as [|p [|q l]]; [destruct H1| |destruct (uniform_cells_cons p q l) as (c & -> & _); discriminate].
    destruct H1 as [H1|[]], H2 as [H2|[]]. lra. }
  set (P := fun c => semR (fun d => probR d (EInt [c])) t).
  assert (HP : forall c, In c (uniform_cells pts) -> answers g (fun _ => EInt [c]) (P c)).
  { intros c Hc. rewrite Forall_forall in Hb. apply Hans; [|discriminate]. apply cell_ok; auto. }
  assert (Hpos : forall c, In c (uniform_cells pts) -> 0 <= P c).
  { intros c Hc. rewrite Forall_forall in Hb. apply semR_nonneg. eapply all_leaves_impl; [|exact (mixture_leaves _ _ Hm)]. cbn beta. intros d (i & -> & Hi). apply probR_nonneg; [exact Hi|].
    cbn. split; [apply cell_ok; auto|discriminate]. }
  set (cs := map (fun c => (nlog (Fin (P c)), DUnif v c)) (uniform_cells pts)).
  assert (Hcs : cs <> []) by (unfold cs; destruct (uniform_cells pts); [contradiction|discriminate]).
  exists (layout (star cs)). split; [|split; [|split]].
  - unfold from_uniform_mixture. rewrite Ev, Evs, Eps. fold pts. pose proof (mount_cells g v P (uniform_cells pts) HP []) as M. cbn [length app Nat.add] in M.
    match goal with |- option_map fst ?X = _ => replace X with (Some (layout (star cs), S (length (uniform_cells pts)))) by (symmetry; exact M) end. reflexivity.
  - assert (Hms : mixture (unif_over v) (star cs)).
    { unfold star. cbn [mixture]. rewrite map_map. apply fold_and_Forall. unfold cs. rewrite Forall_map. eapply Forall_impl; [|exact Hb]. cbn. intros c Hc. exists c. auto. }
    assert (Hns := star_nonempty cs Hcs). destruct (circuit_variables_spec dist_vars (layout (star cs)) 0%nat (star cs) (tree_root _ _ (layout_tree (star cs))) (layout_unfolds _ Hns) (unif_smooth v _ Hns Hms)) as (us & Eu & Su & Hus).
    rewrite Eu. f_equal. assert (V : forall w, In w us <-> w = v) by (intros w; rewrite Hus; now apply unif_mentions). destruct us as [|a [|b us]].
    + destruct (proj2 (V v) eq_refl).
    + f_equal. apply V. now left.
    + exfalso. assert (a = v) by (apply V; now left). assert (b = v) by (apply V; right; now left). inversion Su as [|? ? ? F]; subst. inversion F; subst. lia.
  - assert (E : cs = combine (map (fun c => nlog (Fin (P c))) (uniform_cells pts)) (map (DUnif v) (uniform_cells pts))).
    { unfold cs. clear. induction (uniform_cells pts) as [|c l IH]; cbn [map combine]; [reflexivity|now rewrite IH]. }
    rewrite E. apply uniform_deterministic; auto. now rewrite map_length.
  - intros e A He HA Hne. exists (semR (fun d => probR d (EInt A)) t).
    assert (Hev : forall t0, mixture (unif_over v) t0 -> semR (fun d => probR d (EInt A)) t0 = semR (fun d => probR d (e (dvar d))) t0).
    { intros t0 M. apply semR_ext. eapply all_leaves_impl; [|exact (mixture_leaves _ _ M)]. cbn beta. intros d Hd'. now rewrite (unif_dvar v d Hd'), He. }
    split.
    { rewrite Hev by exact Hm. apply answers_semR; auto. unfold event_ok. eapply all_leaves_impl; [|exact (mixture_leaves _ _ Hm)]. cbn beta. intros d (i & -> & Hi). cbn [dvar]. rewrite He. cbn. auto. }
    replace (semR (fun d => probR d (EInt A)) t) with (semR (fun d => probR d (EInt A)) (star cs)).
    + rewrite Hev. 2: { unfold star. cbn [mixture]. rewrite map_map. apply fold_and_Forall. unfold cs. rewrite Forall_map. eapply Forall_impl; [|exact Hb]. cbn. intros c Hc. exists c. auto. }
      apply (answers_semR (layout (star cs)) (star cs) e).
      * apply layout_layered, star_nonempty. exact Hcs.
      * apply star_sums. unfold cs. rewrite map_map. apply Forall_map, Forall_forall. intros c Hc. cbn [fst]. now apply wexp_nlog, Hpos.
      * apply star_leaves. unfold cs. apply Forall_map. cbn [snd]. eapply Forall_impl; [|exact Hb]. cbn. auto.
      * unfold event_ok. apply star_leaves. unfold cs. apply Forall_map, Forall_forall. intros c _. cbn [dvar snd]. rewrite He. cbn. auto.
    + rewrite star_semR. unfold cs. rewrite map_map. cbn [fst snd].
      transitivity (Rsum (map (fun c => measure (cdfR (DUnif v c)) A * semR (fun d => delta (cdfR d) c) t) (uniform_cells pts))).
      * apply Rsum_ext. intros c Hc. rewrite (proj2 (wexp_nlog (P c) (Hpos c Hc))). rewrite Rmult_comm. cbn [probR]. f_equal. unfold P.
        apply semR_ext. eapply all_leaves_impl; [|exact (mixture_leaves _ _ Hm)]. cbn. intros d (i & -> & Hi). cbn [probR]. unfold measure. cbn. lra.
      * rewrite <- (mixture_linear (unif_over v) (fun c => measure (cdfR (DUnif v c)) A) (fun c d => delta (cdfR d) c)) by exact Hm.
        apply semR_ext. eapply all_leaves_impl; [|exact Hin]. cbn beta. intros d (i & -> & Hi & H1 & H2). cbn [probR].
        apply uniform_measure; auto. apply HA.
Qed.
End C41.

(** Two overlapping uniforms of different weight: not deterministic, the hypotheses hold. *)
Definition overlapping : graph dist := layout (star [(nlog (Fin (1/4)), DUnif 0 (iclosed 0 2)); (nlog (Fin (3/4)), DUnif 0 (iclosed 1 3))]).

Example C41_case : layered_circuit overlapping (star [(nlog (Fin (1/4)), DUnif 0 (iclosed 0 2)); (nlog (Fin (3/4)), DUnif 0 (iclosed 1 3))]) /\ uniforms 0 overlapping /\
  all_sums (Forall lw_ok) (star [(nlog (Fin (1/4)), DUnif 0 (iclosed 0 2)); (nlog (Fin (3/4)), DUnif 0 (iclosed 1 3))]).
Proof.
  split; [|split].
  - apply layout_layered, star_nonempty. discriminate.
  - intros u k Hk. unfold overlapping in Hk. rewrite layout_star in Hk. apply node_kind_In in Hk. cbn [g_nodes leaf_nodes fst snd In] in Hk.
    destruct Hk as [X|[X|[X|[]]]]; injection X as <- <-; [exact I| |]; (split; [reflexivity|]); do 2 eexists; (repeat split); lra.
  - apply star_sums. cbn [map fst]. constructor; [|constructor; [|constructor]]; apply wexp_nlog; lra.
Qed.

Print Assumptions C41_from_uniform_mixture.
