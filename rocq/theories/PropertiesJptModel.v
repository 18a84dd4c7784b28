(** * Properties C61 and C62: the circuit of a fitted joint probability tree *)
From Coq Require Import List Arith Bool Lia ZArith Reals Lra Permutation.
From Verif Require Import Num Graph GraphFacts Spec SpecFacts Circuit EvalFacts Interval Dist DistFacts Simplify Copy Heap ModeFacts TreeProb TreeLocal Layout LayoutFacts Star
  PropertiesProb PropertiesDist BayesNet Nyga NygaFacts NygaGeometry PropertiesNyga Jpt JptFacts PropertiesJpt.
Import ListNotations.
Local Set Bullet Behavior "Strict Subproofs".
Local Open Scope R_scope.

(** ** The specification *)
(** A valid model over the variables [vs]. *)
Record valid_over (vs : list nat) (t : pc dist) : Prop := {
  o_smooth : smooth dist_vars t;
  o_decomposable : decomposable dist_vars t;
  o_normalised : normalised t;
  o_leaves : all_leaves dist_ok t;
  o_variables : forall v, mentions dist_vars t v <-> In v vs
}.

(** The column fits the kind of its variable. *)
Definition column_ok (k : jkind) (c : list R) : Prop :=
  match k with
  | KContinuous _ imp q => (1 <= q)%nat /\ 0 <= imp
  | KSymbolic h => forall x y, In x c -> In y c -> h (Int_part x) = h (Int_part y) -> Int_part x = Int_part y
  | KInteger => forall x y, In x c -> In y c -> pyhash (Int_part x) = pyhash (Int_part y) -> Int_part x = Int_part y
  end.

(** Every row has one entry per variable and the columns fit. *)
Definition table_ok (vars : list (nat * jkind)) (data : list row) : Prop :=
  NoDup (map fst vars) /\ Forall (fun r => length r = length vars) data /\
  forall i v k c, nth_error vars i = Some (v, k) -> column data i = Some c -> column_ok k c.

(** ** The proof *)
Lemma read_children (g : graph dist) (l : list (num * dist)) : forall es,
  Forall2 (fun e wt => e_lw e = Some (fst wt) /\ unfolds g (e_dst e) (snd wt)) es (map (fun wd => (fst wd, PLeaf (snd wd))) l) ->
  mapM (fun e => match e_lw e, node_kind g (e_dst e) with Some w, Some (ULeaf d) => Some (w, PLeaf d) | _, _ => None end) es = Some (map (fun wd => (fst wd, PLeaf (snd wd))) l).
Proof.
  unfold mapM. induction l as [|wd l IH]; intros es HF; inversion HF as [|e wt es' ts' H1 H2]; subst; [reflexivity|].
  destruct H1 as [H1 H3]. cbn [fst snd] in H1, H3. inversion H3 as [? ? Hk| |]; subst. rewrite H1, Hk. now rewrite (IH _ H2).
Qed.

Lemma nyga_root_star l : l <> [] -> nyga_root (layout (star l)) = Some (star l).
Proof.
  intros Hne. assert (T := layout_tree (star l)). unfold nyga_root. rewrite (tree_root _ _ T).
  assert (U := layout_unfolds (star l) (star_nonempty l Hne)). revert U. generalize (layout (star l)) as g. intros g U. inversion U as [|u ts Hk Hn HF|]; subst.
  rewrite Hk. now rewrite (read_children g l _ HF).
Qed.

(** *** One column *)
Lemma star_valid v l : l <> [] -> Forall lw_ok (map fst l) -> Rsum (map wexp (map fst l)) = 1 -> Forall (fun wd => dvar (snd wd) = v /\ dist_ok (snd wd)) l ->
  valid_over [v] (star l) /\ sums_nonempty (star l).
Proof.
  intros Hne Hw Hs Hl. rewrite Forall_forall in Hl.
  assert (M : forall w, mentions dist_vars (star l) w <-> In w [v]).
  { intros w. unfold star. cbn [mentions]. rewrite map_map, fold_or_Exists, Exists_exists. cbn [snd mentions]. unfold dist_vars. split.
    - intros (wd & Hin & [<-|[]]). left. symmetry. now apply Hl.
    - intros [<-|[]]. destruct l as [|wd l]; [contradiction|]. exists wd. split; [now left|]. left. apply Hl. now left. }
  split; [|now apply star_nonempty]. constructor; auto.
  - unfold star. cbn [smooth]. split; [|rewrite map_map; apply fold_and_Forall, Forall_forall; intros; exact I].
    intros w Hw'. apply M in Hw'. destruct Hw' as [<-|[]]. rewrite map_map. apply fold_and_Forall, Forall_forall. intros wd Hin. cbn [snd mentions]. left. now apply Hl.
  - unfold star. cbn [decomposable]. rewrite map_map. apply fold_and_Forall, Forall_forall. intros; exact I.
  - apply star_sums. split; auto.
  - apply star_leaves. apply Forall_forall. intros wd Hin. now apply Hl.
Qed.

Lemma leaf_valid v d : dvar d = v -> dist_ok d -> valid_over [v] (PLeaf d) /\ sums_nonempty (PLeaf d).
Proof. intros <- H. split; [|exact I]. constructor; cbn; auto; try tauto. Qed.

Lemma one_value (c : list R) : c <> [] -> two_values c \/ exists x, map fst (np_unique c) = [x] /\ In x c.
Proof.
  intros Hne. assert (A := unique_ascending c). assert (HI := unique_In c). destruct (map fst (np_unique c)) as [|x [|y l]] eqn:E.
  - exfalso. destruct c as [|x c]; [contradiction|]. destruct (proj2 (HI x)). now left.
  - right. exists x. split; [reflexivity|]. apply HI. now left.
  - left. exists x, y. split; [apply HI; now left|]. split; [apply HI; right; now left|]. pose proof (proj1 A y (or_introl eq_refl)). lra.
Qed.

Lemma dfit_ok h (data : list Z) : data <> [] -> (forall x y, In x data -> In y data -> h x = h y -> x = y) -> dict_ok (dfit h data) /\ Rsum (vals (dfit h data)) = 1.
Proof.
  intros Hne Hh. destruct (fit_injective h data Hne Hh) as (N & S1 & _ & _). split; [|exact S1]. split; [exact N|].
  rewrite dfit_map by exact Hh. unfold vals. rewrite map_map. apply Forall_map, Forall_forall. intros x _. cbn [snd]. apply Rmult_le_pos; [apply pos_INR|]. left. apply Rinv_0_lt_compat, lt_0_INR. destruct data; [contradiction|cbn; lia].
Qed.

Lemma fit_column_valid fuel v k c : c <> [] -> column_ok k c -> (2 * length c <= fuel)%nat ->
  exists u, fit_column fuel v k c = Some u /\ valid_over [v] u /\ sums_nonempty u.
Proof.
  intros Hne Hok Hf. destruct k as [md imp q|h|]; cbn [fit_column column_ok] in *.
  - destruct Hok as [Hq Himp]. destruct (one_value c Hne) as [H2|(x & E & _)].
    + destruct (C40_nyga_partial log_likelihood_without_split log_likelihood_of_split v q imp c Hq Himp H2) as (leaves & Q & F). unfold Nyga.fit. rewrite (F fuel Hf).
      unfold mixture_of. set (l := map _ leaves).
      assert (Hl : l <> []). { intros X. apply map_eq_nil in X. pose proof (q_total _ _ _ _ Q) as T. rewrite X in T. cbn in T. lra. }
      rewrite (nyga_root_star l Hl). exists (star l). split; [reflexivity|].
      assert (Wp : forall wi, In wi leaves -> lw_ok (nlog (Fin (fst wi))) /\ wexp (nlog (Fin (fst wi))) = fst wi).
      { intros wi Hwi. apply wexp_nlog. destruct (q_weights _ _ _ _ Q wi Hwi). lra. }
      apply star_valid; auto.
      * unfold l. rewrite map_map. apply Forall_map, Forall_forall. intros wi Hwi. cbn [fst]. now apply Wp.
      * rewrite <- (q_total _ _ _ _ Q). unfold l. rewrite !map_map. apply Rsum_ext. intros wi Hwi. cbn [fst]. now apply Wp.
      * unfold l. apply Forall_map, Forall_forall. intros wi Hwi. cbn [snd dvar]. split; [reflexivity|]. destruct (q_proper _ _ _ _ Q wi Hwi) as (a & b & cl & -> & Hab). exists a, b. auto.
    + unfold Nyga.fit, fit_with. rewrite E. exists (PLeaf (DDirac v x PInf)). split; [reflexivity|]. apply leaf_valid; [reflexivity|exact I].
  - eexists. split; [reflexivity|]. apply leaf_valid; [reflexivity|]. apply dfit_ok; [destruct c; [contradiction|discriminate]|].
    intros x y Hx Hy. apply in_map_iff in Hx, Hy. destruct Hx as (x' & <- & Hx), Hy as (y' & <- & Hy). auto.
  - eexists. split; [reflexivity|]. apply leaf_valid; [reflexivity|]. apply dfit_ok; [destruct c; [contradiction|discriminate]|].
    intros x y Hx Hy. apply in_map_iff in Hx, Hy. destruct Hx as (x' & <- & Hx), Hy as (y' & <- & Hy). auto.
Qed.

(** *** One leaf *)
Lemma column_In rows i c : column rows i = Some c -> length c = length rows /\ forall x, In x c <-> exists r, In r rows /\ nth_error r i = Some x.
Proof.
  unfold column, mapM. revert c. induction rows as [|r rows IH]; intros c H.
  - injection H as <-. split; [reflexivity|]. intros x. split; [intros []|intros (r & [] & _)].
  - destruct (nth_error r i) as [y|] eqn:E; [|discriminate]. match type of H with match ?X with _ => _ end = _ => destruct X as [c'|] eqn:E'; [|discriminate] end. injection H as <-.
    destruct (IH c' eq_refl) as [L I']. split; [cbn; lia|]. intros x. cbn [In]. rewrite I'. split.
    + intros [<-|(r' & H1 & H2)]; [exists r; auto|exists r'; auto].
    + intros (r' & [<-|H1] & H2); [left; congruence|right; eauto].
Qed.

Lemma column_total rows i n : Forall (fun r : row => length r = n) rows -> (i < n)%nat -> exists c, column rows i = Some c.
Proof.
  unfold column, mapM. induction 1 as [|r rows Hr _ IH]; intros Hi; [eauto|]. destruct (IH Hi) as (c & E). rewrite E.
  destruct (nth_error r i) as [y|] eqn:Ey; [eauto|]. apply nth_error_None in Ey. lia.
Qed.

Lemma column_ok_incl k c c' : incl c' c -> column_ok k c -> column_ok k c'.
Proof. intros H. destruct k; cbn; auto. Qed.

Lemma prod_valid vs us : Forall2 (fun v u => valid_over [v] u /\ sums_nonempty u) vs us -> NoDup vs -> valid_over vs (PProd us) /\ sums_nonempty (PProd us).
Proof.
  intros HF HN.
  assert (M : forall vs us, Forall2 (fun v u => valid_over [v] u /\ sums_nonempty u) vs us -> forall w, mentions dist_vars (PProd us) w <-> In w vs).
  { clear. induction 1 as [|v u vs us [Hv _] HF IH]; intros w; [cbn; tauto|]. cbn [mentions map fold_right In]. change (fold_right or False (map (fun t' => mentions dist_vars t' w) us)) with (mentions dist_vars (PProd us) w). rewrite (o_variables _ _ Hv), IH. cbn. tauto. }
  split; [constructor|].
  - cbn [smooth]. apply fold_and_Forall. clear -HF. induction HF as [|v u vs us [Hv _] HF IH]; constructor; auto. apply Hv.
  - cbn [decomposable]. split.
    + clear -HF HN M. induction HF as [|v u vs us [Hv Hs] HF IH]; cbn [map pairwise_disjoint]; auto. inversion HN as [|? ? N1 N2]; subst. split; [|auto].
      rewrite map_map. apply fold_and_Forall. rewrite Forall_forall. intros u' Hu' w [H1 H2]. apply (o_variables _ _ Hv) in H1. destruct H1 as [<-|[]].
      apply N1. apply (M vs us HF). cbn [mentions]. apply fold_or_Exists, Exists_exists. eauto.
    + apply fold_and_Forall. clear -HF. induction HF as [|v u vs us [Hv _] HF IH]; constructor; auto. apply Hv.
  - unfold normalised. cbn [all_sums]. apply fold_and_Forall. clear -HF. induction HF as [|v u vs us [Hv _] HF IH]; constructor; auto. apply Hv.
  - cbn [all_leaves]. apply fold_and_Forall. clear -HF. induction HF as [|v u vs us [Hv _] HF IH]; constructor; auto. apply Hv.
  - now apply M.
  - cbn [sums_nonempty]. rewrite Forall_map_id. clear -HF. induction HF as [|v u vs us [_ Hv] HF IH]; constructor; auto.
Qed.

Lemma create_valid fuel vars data rows : table_ok vars data -> rows <> [] -> incl rows data -> (2 * length rows <= fuel)%nat ->
  exists u, create_leaf_node fuel vars rows = Some u /\ valid_over (map fst vars) u /\ sums_nonempty u.
Proof.
  intros (HN & HL & HC) Hne Hin Hf. unfold create_leaf_node.
  assert (HLr : Forall (fun r : row => length r = length vars) rows) by (rewrite Forall_forall in *; auto).
  set (f := fun iv : nat * (nat * jkind) => match column rows (fst iv) with None => None | Some c => fit_column fuel (fst (snd iv)) (snd (snd iv)) c end).
  assert (G : forall vs k, (forall i v, nth_error vs i = Some v -> nth_error vars (k + i) = Some v) -> exists us, mapM f (combine (seq k (length vs)) vs) = Some us /\ Forall2 (fun v u => valid_over [v] u /\ sums_nonempty u) (map fst vs) us).
  { unfold mapM. induction vs as [|[v kd] vs IH]; intros k Hvs; [exists []; split; [reflexivity|constructor]|]. cbn [length seq combine map fst].
    destruct (IH (S k)) as (us & E & F). { intros i w Hi. rewrite <- (Hvs (S i) w Hi). f_equal. lia. }
    assert (Hk : nth_error vars k = Some (v, kd)). { rewrite <- (Hvs 0%nat (v, kd) eq_refl). f_equal. lia. }
    assert (Hlt : (k < length vars)%nat) by (apply nth_error_Some; congruence).
    destruct (column_total rows k _ HLr Hlt) as (c & Ec). destruct (column_total data k _ HL Hlt) as (cd & Ecd). destruct (column_In _ _ _ Ec) as [Lc Ic]. destruct (column_In _ _ _ Ecd) as [_ Icd].
    destruct (fit_column_valid fuel v kd c) as (u & Eu & Vu).
    - intros ->. destruct rows; [contradiction|discriminate].
    - eapply column_ok_incl; [|eapply HC; eauto]. intros x Hx. apply Ic in Hx. destruct Hx as (r & Hr & E'). apply Icd. eauto.
    - lia.
    - exists (u :: us). unfold f at 1. cbn [fst snd]. rewrite Ec, Eu, E. split; [reflexivity|]. now constructor. }
  destruct (G vars 0%nat) as (us & E & F); [auto|]. fold f. rewrite E. exists (PProd us). split; [reflexivity|]. now apply prod_valid.
Qed.

Lemma fetched (data : list row) samples : forall rows, mapM (nth_error data) samples = Some rows -> length rows = length samples /\ incl rows data.
Proof.
  unfold mapM. induction samples as [|i l IH]; intros rows H; [injection H as <-; split; [reflexivity|intros x []]|].
  destruct (nth_error data i) as [r|] eqn:Er; [|discriminate]. match type of H with match ?X with _ => _ end = _ => destruct X as [c'|] eqn:E'; [|discriminate] end. injection H as <-.
  destruct (IH _ eq_refl) as [L I1]. split; [cbn; lia|]. intros x [<-|Hx]; [eapply nth_error_In; eauto|auto].
Qed.

(** ** C61 *)
Definition tree_of_leaves (ls : list leaf) : pc dist := PSum (map (fun l => (l_weight l, l_unit l)) ls).

Theorem C61_jpt_valid best j data fuel : let vars := variables_from_init j in
  table_ok vars data -> data <> [] -> respects_contract best (with_total j (length data)) -> depth_limit j ->
  raw_min_samples_leaf j <= INR (length data) -> (2 * length data <= fuel)%nat ->
  exists leaves, fit best (create_leaf_node fuel vars) j fuel data [] = ([], Some leaves) /\
  layered_circuit (circuit_of leaves) (tree_of_leaves leaves) /\ valid_over (map fst vars) (tree_of_leaves leaves).
Proof.
  intros vars Ht Hne Hb Hd Hm Hf.
  destruct (C42_jpt_partition_partial best (create_leaf_node fuel vars) j data) as (leaves & E & T); auto.
  { intros rows H1 H2 H3. destruct (create_valid fuel vars data rows Ht H1 H2) as (u & Eu & _); [lia|eauto]. }
  exists leaves. split; [now apply E|].
  assert (U : forall l, In l leaves -> valid_over (map fst vars) (l_unit l) /\ sums_nonempty (l_unit l)).
  { intros l Hl. destruct (t_units _ _ _ _ T l Hl) as (rows & E1 & E2). destruct (fetched data _ _ E1) as [L I1].
    assert (Hs := t_some _ _ _ _ T l Hl). assert (HP := Permutation_length (t_samples _ _ _ _ T)). rewrite seq_length in HP.
    assert (HL : (length (l_samples l) <= length data)%nat).
    { rewrite <- HP. destruct (in_split _ _ Hl) as (l1 & l2 & ->). rewrite map_app, concat_app, app_length. cbn [map concat]. rewrite app_length. lia. }
    destruct (create_valid fuel vars data rows Ht) as (u & Eu & Vu); auto; [|lia|].
    - intros ->. apply Hs. now destruct (l_samples l).
    - rewrite E2 in Eu. injection Eu as ->. exact Vu. }
  assert (Hl : leaves <> []). { intros ->. pose proof (t_total _ _ _ _ T) as X. cbn in X. lra. }
  assert (N0 : INR (length data) <> 0) by (apply not_0_INR; destruct data; [contradiction|discriminate]).
  split.
  - apply layout_layered. unfold tree_of_leaves. cbn [sums_nonempty]. split; [destruct leaves; [contradiction|discriminate]|]. rewrite map_map. apply Forall_map, Forall_forall. intros l Hin. now apply U.
  - assert (M : forall l v, In l leaves -> mentions dist_vars (l_unit l) v <-> In v (map fst vars)) by (intros l v Hin; apply (proj1 (U l Hin))).
    assert (M' : forall v, mentions dist_vars (tree_of_leaves leaves) v <-> In v (map fst vars)).
    { intros v. unfold tree_of_leaves. cbn [mentions]. rewrite map_map, fold_or_Exists, Exists_exists. cbn [snd]. split.
      - intros (l & Hin & Hv). now apply (M l v Hin).
      - intros Hv. destruct leaves as [|l leaves]; [contradiction|]. exists l. split; [now left|]. apply M; auto. now left. }
    constructor; auto.
    + unfold tree_of_leaves. cbn [smooth]. split.
      * intros v Hv. apply M' in Hv. rewrite map_map. apply fold_and_Forall, Forall_forall. intros l Hin. now apply (M l v Hin).
      * rewrite map_map. apply fold_and_Forall, Forall_forall. intros l Hin. apply (proj1 (U l Hin)).
    + unfold tree_of_leaves. cbn [decomposable]. rewrite map_map. apply fold_and_Forall, Forall_forall. intros l Hin. apply (proj1 (U l Hin)).
    + unfold tree_of_leaves, normalised. cbn [all_sums]. split.
      * split.
        -- rewrite map_map. apply Forall_map, Forall_forall. intros l Hin. cbn [fst]. rewrite (t_weights _ _ _ _ T l Hin). apply wexp_nlog. apply Rmult_le_pos; [apply pos_INR|]. left. apply Rinv_0_lt_compat. pose proof (pos_INR (length data)). lra.
        -- rewrite <- (t_total _ _ _ _ T). rewrite !map_map. reflexivity.
      * rewrite map_map. apply fold_and_Forall, Forall_forall. intros l Hin. apply (proj1 (U l Hin)).
    + unfold tree_of_leaves. cbn [all_leaves]. rewrite map_map. apply fold_and_Forall, Forall_forall. intros l Hin. apply (proj1 (U l Hin)).
Qed.

(** Hence the probability of everything is one, whatever the data. *)
Theorem C61_jpt_total best j data fuel e : let vars := variables_from_init j in
  table_ok vars data -> data <> [] -> respects_contract best (with_total j (length data)) -> depth_limit j ->
  raw_min_samples_leaf j <= INR (length data) -> (2 * length data <= fuel)%nat ->
  exists leaves, fit best (create_leaf_node fuel vars) j fuel data [] = ([], Some leaves) /\
  (event_ok (tree_of_leaves leaves) e -> event_full (tree_of_leaves leaves) e -> answers (circuit_of leaves) e 1).
Proof.
  intros vars H1 H2 H3 H4 H5 H6. destruct (C61_jpt_valid best j data fuel H1 H2 H3 H4 H5 H6) as (leaves & E & L & V). exists leaves. split; [exact E|].
  intros. apply (C03_total _ (tree_of_leaves leaves)); auto; apply V.
Qed.

(** The full statement asks nothing of the discrete columns.  It is false: an integer column is fitted by the hash of its values,
    and -1 and -2 have the same hash. *)
Definition C61_full : Prop := forall best j data fuel, let vars := variables_from_init j in
  NoDup (map fst vars) -> Forall (fun r => length r = length vars) data ->
  (forall i v md imp q c, nth_error vars i = Some (v, KContinuous md imp q) -> column data i = Some c -> (1 <= q)%nat /\ 0 <= imp) ->
  data <> [] -> respects_contract best (with_total j (length data)) -> depth_limit j ->
  raw_min_samples_leaf j <= INR (length data) -> (2 * length data <= fuel)%nat ->
  exists leaves, fit best (create_leaf_node fuel vars) j fuel data [] = ([], Some leaves) /\
  layered_circuit (circuit_of leaves) (tree_of_leaves leaves) /\ valid_over (map fst vars) (tree_of_leaves leaves).

Lemma Int_part_IZR z : Int_part (IZR z) = z.
Proof. unfold Int_part. rewrite <- (tech_up (IZR z) (z + 1)); [lia|apply IZR_lt; lia|rewrite plus_IZR; lra]. Qed.

Theorem C61_refuted : ~ C61_full.
Proof.
  intros F. set (j := init [(1%nat, KInteger)] None None 1 0 PInf (Fin (INR 0)) None).
  destruct (F cut_first j [[-1]; [-2]] 4%nat) as (leaves & E & _ & V).
  - cbn. repeat constructor. intros [].
  - cbn. repeat constructor.
  - intros i v md imp q c Hi _. destruct i as [|[|i]]; discriminate Hi.
  - discriminate.
  - now apply cut_first_contract.
  - right. now exists 0%nat.
  - cbn. lra.
  - cbn. lia.
  - unfold fit in E. cbn [fit_loop app length] in E. unfold c45 in E. cbn [i_data i_start i_end i_depth j init sorted_by fold_right sort_insert set_targets_and_features with_total max_depth map fst] in E.
    assert (Q : ngeb (Fin (INR 0)) (Fin (INR 0)) = true) by (cbn [ngeb nleb]; rb; auto; lra). rewrite Q in E. cbn [orb nleb slice firstn skipn Nat.sub seq mapM nth_error] in E.
    cbn [create_leaf_node variables_from_init length seq combine mapM column fst snd nth_error fit_column option_map map] in E.
    rewrite (Int_part_IZR (-1)), (Int_part_IZR (-2)) in E. cbn [length Nat.eqb app fit_loop] in E. injection E as <-.
    destruct (o_leaves _ _ V) as [X _]. cbn [tree_of_leaves map all_leaves snd l_unit fold_right] in X. destruct X as [[_ X] _]. revert X. unfold dfit. cbn. lra.
Qed.
Print Assumptions C61_refuted.

(** Two rows over an integer and a continuous variable. *)
Example C61_case : let j := init [(1%nat, KInteger); (2%nat, KContinuous 1 0 1)] None None 1 0 PInf PInf None in
  table_ok (variables_from_init j) [[3; 5]; [4; 6]] /\ respects_contract cut_first (with_total j 2) /\ depth_limit j /\ raw_min_samples_leaf j <= INR 2.
Proof.
  intros j. split; [split; [|split]|split; [|split]].
  - cbn. repeat constructor; cbn; intuition discriminate.
  - cbn. repeat constructor.
  - intros i v k c Hi Hc. destruct i as [|[|i]]; cbn in Hi; [| |destruct i; discriminate]; injection Hi as <- <-; cbn in Hc; injection Hc as <-; cbn [column_ok].
    + assert (I3 : Int_part 3 = 3%Z) by (unfold Int_part; replace (up 3) with 4%Z; [reflexivity|apply tech_up; cbn; lra]). assert (I4 : Int_part 4 = 4%Z) by (unfold Int_part; replace (up 4) with 5%Z; [reflexivity|apply tech_up; cbn; lra]).
      intros x y [<-|[<-|[]]] [<-|[<-|[]]]; rewrite ?I3, ?I4; vm_compute; auto; discriminate.
    + split; [lia|lra].
  - now apply cut_first_contract.
  - left. reflexivity.
  - cbn. lra.
Qed.

(** ** C62 *)
(** The density cap of a Dirac leaf should be the inverse of the variable's minimal distance (JPT.py:275-276). *)
Definition C62_full : Prop := forall fuel v md imp q x n, 0 < md -> fit_column fuel v (KContinuous md imp q) (repeat x (S n)) = Some (PLeaf (DDirac v x (Fin (1 / md)))).

Lemma unique_repeat x n : map fst (np_unique (repeat x (S n))) = [x].
Proof.
  assert (A := unique_ascending (repeat x (S n))). assert (HI := unique_In (repeat x (S n))). destruct (map fst (np_unique (repeat x (S n)))) as [|a [|b l]].
  - destruct (proj2 (HI x)). now left.
  - f_equal. apply (repeat_spec (S n) x). apply HI. now left.
  - exfalso. assert (a = x) by (apply (repeat_spec (S n)), HI; now left). assert (b = x) by (apply (repeat_spec (S n)), HI; right; now left). pose proof (proj1 A b (or_introl eq_refl)). lra.
Qed.

(** A column with one value becomes a Dirac leaf at that value, but with an infinite density cap. *)
Theorem C62_dirac_partial fuel v md imp q x n : fit_column fuel v (KContinuous md imp q) (repeat x (S n)) = Some (PLeaf (DDirac v x PInf)).
Proof. cbn [fit_column]. unfold Nyga.fit, fit_with. rewrite unique_repeat. reflexivity. Qed.

Theorem C62_refuted : ~ C62_full.
Proof. intros F. specialize (F 0%nat 0%nat 1 0 1%nat 0 0%nat Rlt_0_1). rewrite C62_dirac_partial in F. discriminate F. Qed.

Print Assumptions C61_jpt_valid.
Print Assumptions C61_jpt_total.
Print Assumptions C62_dirac_partial.
Print Assumptions C62_refuted.
