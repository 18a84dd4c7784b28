(** * MarginalFacts: marginal_in_place on tree-shaped circuits *)
From Coq Require Import List Arith Bool Lia Reals Lra Permutation Sorting.Sorted.
From Verif Require Import Num Graph GraphFacts Spec SpecFacts Circuit EvalFacts Simplify SimplifyFacts TreeProb TreeLocal Restrict.
Import ListNotations.

Section Marg.
Context {D : Type}.
Implicit Types g : graph D.
Variable kp : D -> bool.      (* the leaf's variable is asked for *)

(** Some leaf below is kept. *)
Fixpoint survives (t : pc D) : bool :=
  match t with
  | PLeaf d => kp d
  | PSum l => existsb (fun wt => survives (snd wt)) l
  | PProd l => existsb survives l
  end.

Definition surv g (u : id) : bool := match the_tree g u with Some t => survives t | None => false end.

Lemma surv_unfolds g u t : unfolds g u t -> surv g u = survives t.
Proof. intros H. unfold surv. now rewrite (the_tree_unfolds _ _ _ H). Qed.

Lemma set_kind_id g u d : NoDup (node_ids g) -> node_kind g u = Some (ULeaf d) -> set_kind g u (ULeaf d) = g.
Proof.
  intros Hnd Hk. destruct g as [ns es]. unfold set_kind. simpl. f_equal. rewrite <- map_id. apply map_ext_in. intros [v k] Hin. simpl.
  destruct (v =? u) eqn:E; auto. apply Nat.eqb_eq in E. subst v. rewrite (node_kind_NoDup _ u k Hnd Hin) in Hk. congruence.
Qed.

Variable dead : D -> bool.
Variable dmarg : list nat -> D -> option D.
Variable vs : list nat.
Hypothesis Hdm : forall d, dmarg vs d = if kp d then Some d else None.

Lemma surv_children g u t : unfolds g u t -> (forall d, node_kind g u <> Some (ULeaf d)) ->
  surv g u = existsb (surv g) (subcircuits g u).
Proof.
  intros H Hk. rewrite (surv_unfolds _ _ _ H). unfold subcircuits. inversion H as [? d E|? ts E Hne HF|? ts E HF]; subst.
  - exfalso. eapply Hk; eauto.
  - simpl. clear - HF. induction HF as [|e wt es ts [_ Hu] HF IH]; simpl; auto. now rewrite (surv_unfolds _ _ _ Hu), IH.
  - simpl. clear - HF. induction HF as [|e wt es ts Hu HF IH]; simpl; auto. now rewrite (surv_unfolds _ _ _ Hu), IH.
Qed.

Lemma filter_nil_existsb {A} (f : A -> bool) l : filter f l = [] <-> existsb f l = false.
Proof.
  induction l as [|a l IH]; simpl; [tauto|]. destruct (f a); simpl; [split; discriminate|auto].
Qed.

(** The bottom-up pass leaves exactly the surviving units. *)
Lemma marginal_pass g : wf g -> (forall u, In u (node_ids g) -> exists t, unfolds g u t) ->
  forall rest done last, (forall u, In u rest -> In u (node_ids g)) -> NoDup (done ++ rest) -> topo_up g (done ++ rest) ->
  foldM (fun s u => match unit_marginal dmarg vs (fst s) u with
                    | None => None | Some (g', b) => Some (g', Some (u, b)) end) rest
    (keepN (fun u => negb (existsb (Nat.eqb u) done) || surv g u) g, last) =
  Some (keepN (fun u => negb (existsb (Nat.eqb u) (done ++ rest)) || surv g u) g,
        match rev rest with [] => last | u :: _ => Some (u, surv g u) end).
Proof.
  intros Hwf Hun. induction rest as [|u rest IH]; intros done last Hin Hnd Ht; cbn [foldM].
  - rewrite app_nil_r. reflexivity.
  - set (p := fun v => negb (existsb (Nat.eqb v) done) || surv g v).
    assert (Hnotin : forall v, ~ In v done -> existsb (Nat.eqb v) done = false).
    { intros v Hv. apply not_true_iff_false. intros E. apply existsb_exists in E. destruct E as [x [Hx E]]. apply Nat.eqb_eq in E. now subst. }
    assert (Hind : forall v, In v done -> existsb (Nat.eqb v) done = true).
    { intros v Hv. apply existsb_exists. exists v. split; auto. apply Nat.eqb_refl. }
    assert (Hud : ~ In u done) by (intros Hd; apply NoDup_remove_2 in Hnd; apply Hnd, in_or_app; now left).
    assert (Hpu : p u = true) by (unfold p; now rewrite Hnotin).
    assert (Hug : In u (node_ids g)) by (apply Hin; now left).
    destruct (Hun u Hug) as [t Hut].
    assert (Hstep : unit_marginal dmarg vs (keepN p g) u =
      Some (keepN (fun v => negb (existsb (Nat.eqb v) (done ++ [u])) || surv g v) g, surv g u)).
    { assert (Hres : (if surv g u then Some (keepN p g, true) else match remove_node (keepN p g) u with None => None | Some g' => Some (g', false) end) =
        Some (keepN (fun v => negb (existsb (Nat.eqb v) (done ++ [u])) || surv g v) g, surv g u)).
      { destruct (surv g u) eqn:Es.
        - do 2 f_equal. apply keepN_ext; auto. intros v _. unfold p. rewrite existsb_app. simpl. rewrite orb_false_r.
          destruct (v =? u) eqn:E; [apply Nat.eqb_eq in E; subst; rewrite Es, !orb_true_r; reflexivity|]. now rewrite orb_false_r.
        - unfold remove_node. replace (has_node (keepN p g) u) with true by (symmetry; apply has_node_In, keepN_ids; auto).
          do 2 f_equal. rewrite drop_keepN, keepN_keepN. apply keepN_ext; auto. intros v _. unfold p. rewrite existsb_app. simpl. rewrite orb_false_r.
          destruct (v =? u) eqn:E; [apply Nat.eqb_eq in E; subst; rewrite Es, orb_true_r, andb_false_r; reflexivity|].
          now rewrite orb_false_r, andb_true_r. }
      rewrite <- Hres. unfold unit_marginal. rewrite keepN_kind by auto.
      destruct (node_kind_complete g u Hug) as [k Hk]. rewrite Hk.
      assert (Hinner : (forall d, k <> ULeaf d) -> match subcircuits (keepN p g) u with
          | [] => match remove_node (keepN p g) u with Some g' => Some (g', false) | None => None end
          | _ :: _ => Some (keepN p g, true) end =
          (if surv g u then Some (keepN p g, true) else match remove_node (keepN p g) u with Some g' => Some (g', false) | None => None end)).
      { intros Hki. rewrite (surv_children g u t Hut) by (intros d E; rewrite E in Hk; injection Hk as <-; now apply (Hki d)).
        assert (Ef : subcircuits (keepN p g) u = filter (surv g) (subcircuits g u)).
        { rewrite keepN_sub by auto. apply filter_ext_in. intros c Hc. unfold p. rewrite Hind; auto. eapply Ht; eauto. }
        rewrite Ef. destruct (filter (surv g) (subcircuits g u)) as [|c cs] eqn:E.
        - apply filter_nil_existsb in E. now rewrite E.
        - destruct (existsb (surv g) (subcircuits g u)) eqn:E2; auto. apply filter_nil_existsb in E2. congruence. }
      destruct k as [d| |]; try (apply Hinner; discriminate).
      assert (Es : surv g u = kp d).
      { rewrite (surv_unfolds g u (PLeaf d)); [reflexivity|]. now apply unf_leaf. }
      rewrite Hdm, Es. destruct (kp d); auto. rewrite set_kind_id; auto; [apply keepN_wf; auto|now rewrite keepN_kind]. }
    cbn [fst]. change (fun u0 : id => negb (existsb (Nat.eqb u0) done) || surv g u0) with p. rewrite Hstep.
    rewrite (IH (done ++ [u])).
    + rewrite <- !app_assoc. simpl. f_equal. f_equal. destruct (rev rest) as [|v l] eqn:E; [|reflexivity].
      apply (f_equal (@rev id)) in E. rewrite rev_involutive in E. simpl in E. subst rest. reflexivity.
    + intros v Hv. apply Hin. now right.
    + now rewrite <- app_assoc.
    + now rewrite <- app_assoc.
Qed.
End Marg.

Section Meaning.
Context {D : Type}.
Variable kp : D -> bool.
Variable dvars : D -> list nat.
Variable vs : list nat.

(** Univariate leaves, kept when their variable is in [vs]. *)
Definition uni (d : D) : Prop := exists v, dvars d = [v] /\ kp d = existsb (Nat.eqb v) vs.

Lemma existsb_mem v : existsb (Nat.eqb v) vs = true <-> In v vs.
Proof.
  rewrite existsb_exists. split.
  - intros [x [H E]]. apply Nat.eqb_eq in E. now subst.
  - intros H. exists v. split; auto. apply Nat.eqb_refl.
Qed.

Lemma survives_iff t : all_leaves uni t -> (survives kp t = true <-> exists v, In v vs /\ mentions dvars t v).
Proof.
  induction t as [d|l IH|l IH] using pc_ind'; simpl.
  - intros [v [E1 E2]]. rewrite E1, E2, existsb_mem. simpl. split; [eauto|]. intros [w [H [<-|[]]]]. auto.
  - rewrite fold_and_Forall. intros H. rewrite existsb_exists. rewrite Forall_forall in *. split.
    + intros [wt [Hin Hs]]. apply (IH wt Hin) in Hs; auto. destruct Hs as [v [Hv Hm]]. exists v. split; auto.
      apply fold_or_Exists, Exists_exists. eauto.
    + intros [v [Hv Hm]]. apply fold_or_Exists, Exists_exists in Hm. destruct Hm as [wt [Hin Hm]]. exists wt. split; auto.
      apply IH; eauto.
  - rewrite fold_and_Forall. intros H. rewrite existsb_exists. rewrite Forall_forall in *. split.
    + intros [wt [Hin Hs]]. apply (IH wt Hin) in Hs; auto. destruct Hs as [v [Hv Hm]]. exists v. split; auto.
      apply fold_or_Exists, Exists_exists. eauto.
    + intros [v [Hv Hm]]. apply fold_or_Exists, Exists_exists in Hm. destruct Hm as [wt [Hin Hm]]. exists wt. split; auto.
      apply IH; eauto.
Qed.

Notation pr := (prune (survives kp)).

Lemma prune_mentions t v : all_leaves uni t -> survives kp t = true -> (mentions dvars (pr t) v <-> mentions dvars t v /\ In v vs).
Proof.
  induction t as [d|l IH|l IH] using pc_ind'; simpl.
  - intros [w [E1 E2]]. rewrite E1, E2, existsb_mem. simpl. intros H. split; [intros [<-|[]]|intros [[<-|[]] _]]; auto.
  - rewrite fold_and_Forall. intros H _. rewrite !fold_or_Exists, !Exists_exists. rewrite Forall_forall in *. split.
    + intros [wt [Hin Hm]]. apply in_flat_map in Hin. destruct Hin as [wt0 [Hin Hw]]. destruct (survives kp (snd wt0)) eqn:E; [|destruct Hw].
      destruct Hw as [<-|[]]. simpl in Hm. apply (IH wt0) in Hm; auto. destruct Hm. split; eauto.
    + intros [[wt [Hin Hm]] Hv]. assert (E : survives kp (snd wt) = true) by (apply survives_iff; eauto).
      exists (fst wt, pr (snd wt)). split; [|apply IH; auto]. apply in_flat_map. exists wt. rewrite E. simpl. auto.
  - rewrite fold_and_Forall. intros H _. rewrite !fold_or_Exists, !Exists_exists. rewrite Forall_forall in *. split.
    + intros [wt [Hin Hm]]. apply in_flat_map in Hin. destruct Hin as [wt0 [Hin Hw]]. destruct (survives kp wt0) eqn:E; [|destruct Hw].
      destruct Hw as [<-|[]]. simpl in Hm. apply (IH wt0) in Hm; auto. destruct Hm. split; eauto.
    + intros [[wt [Hin Hm]] Hv]. assert (E : survives kp wt = true) by (apply survives_iff; eauto).
      exists (pr wt). split; [|apply IH; auto]. apply in_flat_map. exists wt. rewrite E. simpl. auto.
Qed.

(** In a smooth circuit the children of a sum unit survive together. *)
Lemma smooth_together l : all_leaves uni (PSum l) -> smooth dvars (PSum l) -> survives kp (PSum l) = true ->
  forall wt, In wt l -> survives kp (snd wt) = true.
Proof.
  intros Hu [Hs _] Hsv wt Hin. apply survives_iff in Hsv; auto. destruct Hsv as [v [Hv Hm]]. specialize (Hs v Hm).
  rewrite fold_and_Forall, Forall_forall in Hs. simpl in Hu. rewrite fold_and_Forall, Forall_forall in Hu. apply survives_iff; eauto.
Qed.

Lemma flat_map_all {A B} (f : A -> bool) (h : A -> B) l : (forall x, In x l -> f x = true) ->
  flat_map (fun x => if f x then [h x] else []) l = map h l.
Proof. induction l as [|a l IH]; simpl; intros H; auto. rewrite (H a) by auto. simpl. f_equal. auto. Qed.

Lemma prune_sum l : all_leaves uni (PSum l) -> smooth dvars (PSum l) -> survives kp (PSum l) = true ->
  pr (PSum l) = PSum (map (fun wt => (fst wt, pr (snd wt))) l).
Proof.
  intros Hu Hs Hsv. simpl. f_equal. apply (flat_map_all (fun wt => survives kp (snd wt)) (fun wt => (fst wt, pr (snd wt)))).
  eapply smooth_together; eauto.
Qed.

Lemma prune_normalised t : all_leaves uni t -> smooth dvars t -> normalised t -> survives kp t = true -> normalised (pr t).
Proof.
  unfold normalised. induction t as [d|l IH|l IH] using pc_ind'; intros Hu Hs Hn Hsv; auto.
  - rewrite prune_sum by auto. simpl. rewrite map_map. simpl. rewrite map_map. destruct Hn as [Hc Hn]. split; auto.
    pose proof (smooth_together l Hu Hs Hsv) as Hall. destruct Hs as [_ Hs]. cbn in Hu. rewrite fold_and_Forall in *.
    rewrite Forall_forall in *. intros wt Hin. apply IH; auto.
  - simpl in *. rewrite fold_and_Forall in *. apply Forall_flat_map. rewrite Forall_forall in *. intros t' Hin.
    destruct (survives kp t') eqn:E; repeat constructor. auto.
Qed.

Lemma prune_smooth t : all_leaves uni t -> smooth dvars t -> survives kp t = true -> smooth dvars (pr t).
Proof.
  induction t as [d|l IH|l IH] using pc_ind'; intros Hu Hs Hsv; auto.
  - rewrite prune_sum by auto. pose proof (smooth_together l Hu Hs Hsv) as Hall. destruct Hs as [Hv Hs].
    cbn in Hu. rewrite fold_and_Forall in Hu, Hs. rewrite Forall_forall in *. cbn [smooth]. rewrite !map_map. cbn [snd]. split.
    + intros v Hm. simpl in Hm. rewrite map_map in Hm. cbn [snd] in Hm. apply fold_or_Exists, Exists_exists in Hm.
      destruct Hm as [wt [Hin Hm]]. apply prune_mentions in Hm; auto. destruct Hm as [Hm Hin'].
      assert (Hmm : mentions dvars (PSum l) v) by (simpl; apply fold_or_Exists, Exists_exists; eauto).
      specialize (Hv v Hmm). rewrite fold_and_Forall, Forall_forall in *. intros wt' Hw. apply in_map_iff in Hw. destruct Hw as [wt0 [<- Hw]]. apply prune_mentions; auto.
    + rewrite fold_and_Forall, Forall_forall. auto.
  - simpl in *. rewrite fold_and_Forall in *. apply Forall_flat_map. rewrite Forall_forall in *. intros t' Hin.
    destruct (survives kp t') eqn:E; repeat constructor. auto.
Qed.

Lemma prune_decomposable t : all_leaves uni t -> decomposable dvars t -> survives kp t = true -> decomposable dvars (pr t).
Proof.
  induction t as [d|l IH|l IH] using pc_ind'; intros Hu Hd Hsv; auto.
  - simpl in *. rewrite fold_and_Forall in *. apply Forall_flat_map. rewrite Forall_forall in *. intros t' Hin.
    destruct (survives kp (snd t')) eqn:E; repeat constructor. simpl. auto.
  - simpl in *. rewrite fold_and_Forall in *. destruct Hd as [Hp Hd]. split.
    + clear Hsv IH Hd. induction l as [|a l IHl]; simpl in *; auto. inversion Hu; subst. destruct Hp as [Hp1 Hp2].
      destruct (survives kp a) eqn:E; simpl; auto. split; auto.
      apply fold_and_Forall. apply fold_and_Forall in Hp1. rewrite Forall_map in Hp1. rewrite Forall_map. rewrite Forall_forall in *. intros q Hq v [Hq1 Hq2]. apply in_flat_map in Hq. destruct Hq as [t' [Hin Hq]].
      destruct (survives kp t') eqn:E'; [|destruct Hq]. destruct Hq as [<-|[]]. apply prune_mentions in Hq1; auto. apply prune_mentions in Hq2; auto.
      apply (Hp1 t' Hin v). tauto.
    + rewrite ?fold_and_Forall in *. apply Forall_flat_map. rewrite Forall_forall in *. intros t' Hin. destruct (survives kp t') eqn:E; repeat constructor. auto.
Qed.

(** Leaves that are dropped count as 1. *)
Lemma prune_value (val : D -> num) t : all_leaves uni t -> smooth dvars t -> normalised t -> fin_sums t ->
  all_leaves (fun d => nonneg (val d) /\ (kp d = false -> val d = Fin 1)) t ->
  semN val t = if survives kp t then semN val (pr t) else Fin 1.
Proof.
  unfold normalised, fin_sums. induction t as [d|l IH|l IH] using pc_ind'; intros Hu Hs Hn Hf Hv.
  - simpl in *. destruct (kp d); [reflexivity|]. now apply Hv.
  - destruct (survives kp (PSum l)) eqn:Hsv.
    + pose proof (smooth_together l Hu Hs Hsv) as Hall. rewrite prune_sum by auto. simpl in *. rewrite map_map. cbn [fst snd].
      rewrite fold_and_Forall in *. destruct Hs as [_ Hs], Hn as [_ Hn], Hf as [_ Hf]. rewrite ?fold_and_Forall in *.
      f_equal. apply map_ext_in. intros wt Hin. rewrite Forall_forall in *. rewrite (IH wt) by auto. now rewrite Hall.
    + simpl in *. destruct Hs as [_ Hs], Hn as [[_ Hc] Hn], Hf as [Hw Hf]. rewrite ?fold_and_Forall in *.
      transitivity (nsum (map (fun wt => Fin (wexp (fst wt))) l)).
      * f_equal. apply map_ext_in. intros wt Hin. rewrite Forall_forall in *. rewrite (IH wt) by auto.
        assert (E : survives kp (snd wt) = false).
        { apply not_true_iff_false. intros E. rewrite <- not_true_iff_false in Hsv. apply Hsv. apply existsb_exists. eauto. }
        rewrite E. specialize (Hw (fst wt) (in_map fst _ _ Hin)). destruct (fst wt); simpl in Hw; try tauto. simpl. now rewrite Rmult_1_r.
      * transitivity (Fin (Rsum (map wexp (map fst l)))); [|now rewrite Hc]. clear. rewrite map_map.
        induction l as [|a l IHl]; simpl; auto. simpl in IHl. rewrite IHl. reflexivity.
  - simpl in *. rewrite fold_and_Forall in *.
    assert (G : nprod (map (semN val) l) = nprod (map (semN val) (flat_map (fun t' => if survives kp t' then [pr t'] else []) l))).
    { clear - IH Hu Hs Hn Hf Hv. induction l as [|a l IHl]; simpl; auto. inversion IH; subst. inversion Hu; subst. inversion Hs; subst.
      inversion Hn; subst. inversion Hf; subst. inversion Hv; subst.
      assert (E : semN val a = (if survives kp a then semN val (pr a) else Fin 1)) by auto.
      specialize (IHl H2 H4 H6 H8 H10 H12). unfold nprod in *. cbn [map fold_right]. rewrite E.
      destruct (survives kp a); cbn [map fold_right app].
      - now rewrite IHl.
      - rewrite nmul_1_l. exact IHl. }
    rewrite G. destruct (existsb (survives kp) l) eqn:E; [reflexivity|].
    assert (flat_map (fun t' => if survives kp t' then [pr t'] else []) l = []) as ->; [|reflexivity].
    clear - E. induction l as [|a l IHl]; simpl in *; auto. apply orb_false_iff in E. destruct E as [-> E]. simpl. auto.
Qed.
End Meaning.

Section Main.
Context {D : Type}.
Variable kp : D -> bool.
Variable dead : D -> bool.
Variable dvars : D -> list nat.
Variable dmarg : list nat -> D -> option D.
Variable vs : list nat.
Hypothesis Hdm : forall d, dmarg vs d = if kp d then Some d else None.

Theorem marginal_meaning (g : graph D) r t : tree_circuit g r t -> all_leaves (fun d => dead d = false) t -> normalised t ->
  smooth dvars t -> decomposable dvars t -> all_leaves (uni kp dvars vs) t ->
  if survives kp t then
    exists g' r' t', marginal_in_place dead dmarg vs g = Some (Some g') /\ tree_circuit g' r' t' /\
      (forall val, all_leaves (fun d => nonneg (val d) /\ (kp d = false -> val d = Fin 1)) t -> semN val t' = semN val t) /\
      (forall P, all_leaves P t -> all_leaves P t') /\
      normalised t' /\ smooth dvars t' /\ decomposable dvars t' /\
      (forall v, mentions dvars t' v <-> mentions dvars t v /\ In v vs)
  else marginal_in_place dead dmarg vs g = Some None.
Proof.
  intros H Ha Hn Hs Hd Hu. pose proof H as [Htree Hleaf Hunf Hfin]. pose proof Htree as [Hwf [Hac [Hr [Hnd [Hall Htop]]]]].
  pose proof (tree_root _ _ Htree) as Hroot.
  destruct (bottom_up_spec g r Hwf Hroot) as [ls [Hls [Hbu _]]]. set (order := concat (rev ls)) in *.
  assert (Ho : forall u, In u order <-> In u (node_ids g)).
  { intros u. unfold order. rewrite concat_rev_In, (layers_from_In g r ls Hls). split.
    - intros Hre. induction Hre; auto. now apply (wf_dst g Hwf).
    - now apply root_reaches_all. }
  assert (Hndo : NoDup order).
  { unfold order. apply (Permutation_NoDup (l := concat ls)); [|eapply layers_from_NoDup; eauto].
    clear. induction ls as [|l ls IH]; simpl; auto. rewrite concat_app. simpl. rewrite app_nil_r. rewrite IH. apply Permutation_app_comm. }
  assert (Htopo : topo_up g order) by (eapply graded_topo_up; eauto; now apply tree_graded).
  assert (Hunits : forall u, In u (node_ids g) -> exists t, unfolds g u t).
  { intros u Hin. destruct (tc_units (fun _ => True) g r t H hered_True I u Hin) as [t0 [Ht0 _]]. eauto. }
  assert (Hlast : exists pre, order = pre ++ [r]).
  { destruct (exists_last (l := order)) as [pre [u E]]; [intros E; apply (Ho r) in Hr; rewrite E in Hr; destruct Hr|].
    exists pre. destruct (Nat.eq_dec u r) as [->|Hne]; auto. exfalso.
    assert (Huin : In u (node_ids g)) by (apply Ho; rewrite E; apply in_or_app; right; now left).
    specialize (Hall u Huin Hne). apply in_map_iff in Hall. destruct Hall as [e [Ed He]].
    assert (Hsin : In (e_src e) order) by (apply Ho; now apply (wf_src g Hwf)).
    apply in_split in Hsin. destruct Hsin as [p1 [p2 E2]].
    assert (Hup : In u p1) by (eapply Htopo; eauto; apply subcircuits_In; exists e; auto).
    assert (Hup2 : exists q, p2 = q ++ [u] \/ (p2 = [] /\ e_src e = u)).
    { destruct p2 as [|x p2']; [exists []; right; split; auto|].
      - rewrite E in E2. apply app_inj_tail in E2. symmetry. tauto.
      - destruct (exists_last (l := x :: p2')) as [q [y Eq]]; [discriminate|]. exists q. left. rewrite Eq in *.
        rewrite E in E2. rewrite app_comm_cons, app_assoc in E2. apply app_inj_tail in E2. destruct E2 as [_ ->]. reflexivity. }
    rewrite E2 in Hndo. destruct Hup2 as [q [-> |[-> Es]]].
    - apply in_split in Hup. destruct Hup as [a [b ->]]. rewrite <- app_assoc in Hndo. apply NoDup_remove_2 in Hndo. apply Hndo.
      rewrite !in_app_iff. simpl. rewrite in_app_iff. simpl. auto 8.
    - rewrite Es in Hndo. apply NoDup_remove_2 in Hndo. apply Hndo. rewrite app_nil_r. auto. }
  destruct Hlast as [pre Hlast].
  pose proof (marginal_pass kp dmarg vs Hdm g Hwf Hunits order (@nil id) None) as Hpass.
  assert (Hk0 : keepN (fun u => negb (existsb (Nat.eqb u) (@nil id)) || surv kp g u) g = g) by (apply keepN_all; auto).
  rewrite Hk0 in Hpass. specialize (Hpass (fun u Hu' => proj1 (Ho u) Hu') Hndo Htopo).
  assert (Hk1 : keepN (fun u => negb (existsb (Nat.eqb u) ([] ++ order)) || surv kp g u) g = keepN (surv kp g) g).
  { apply keepN_ext; auto. intros u Hin. apply Ho in Hin. simpl. replace (existsb (Nat.eqb u) order) with true; auto. symmetry.
    apply existsb_exists. exists u. split; auto. apply Nat.eqb_refl. }
  rewrite Hk1, Hlast, rev_app_distr in Hpass. simpl in Hpass. rewrite <- Hlast in Hpass.
  assert (Hsr : surv kp g r = survives kp t) by now apply surv_unfolds.
  unfold marginal_in_place, marginal_loop. rewrite Hbu. fold order. rewrite Hpass, Hsr. destruct (survives kp t) eqn:Es; auto.
  set (g1 := keepN (surv kp g) g) in *.
  assert (Hedge : forall e t', In e (g_edges g) -> surv kp g (e_src e) = true -> unfolds g (e_dst e) t' -> surv kp g (e_dst e) = survives kp t').
  { intros e t' _ _ Ht'. now apply surv_unfolds. }
  assert (Hup : forall e, In e (g_edges g) -> surv kp g (e_dst e) = true -> surv kp g (e_src e) = true).
  { intros e He Hs'. destruct (Hunits (e_src e)) as [ts Hts]; [now apply (wf_src g Hwf)|].
    rewrite (surv_children kp g (e_src e) ts Hts).
    - apply existsb_exists. exists (e_dst e). split; auto. apply subcircuits_In. eauto.
    - intros d. eapply Hleaf; eauto. }
  assert (H1 : tree_circuit g1 r (prune (survives kp) t)).
  { constructor.
    - apply keepN_tree; auto.
    - now apply keepN_leaves.
    - apply prune_unfolds; auto.
    - now apply prune_fin. }
  rewrite (remove_unreachable_id g1 r); [|apply H1|apply (tc_tree _ _ _ H1)|apply tree_root, H1].
  destruct (simplify_meaning dead dvars g1 r (prune (survives kp) t) H1) as [g' [r' [t' [S1 [S2 [S3 [S4 [S5 [S6 [S7 S8]]]]]]]]]].
  - now apply prune_leaves.
  - eapply prune_normalised; eauto.
  - eapply prune_smooth; eauto.
  - eapply prune_decomposable; eauto.
  - rewrite S1. exists g', r', t'. split; [auto|split; [auto|split; [|split; [|split; [auto|split; [auto|split; [auto|]]]]]]].
    + intros val Hv. rewrite S3; [|apply prune_leaves; eapply all_leaves_impl; [|exact Hv]; simpl; tauto].
      rewrite (prune_value kp dvars vs val t); auto. now rewrite Es.
    + intros P HP. apply S4. now apply prune_leaves.
    + intros v. rewrite S6. now apply (prune_mentions kp dvars vs).
Qed.
End Main.
