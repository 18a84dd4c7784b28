(** * Property C87: the arguments of the impurity computation *)
From Coq Require Import List Arith Bool Lia ZArith Reals Sorted Permutation.
From Verif Require Import Num Graph Heap Copy Nyga Jpt PropertiesJptParams JptImpurity.
Import ListNotations.
Local Set Bullet Behavior "Strict Subproofs".
Local Open Scope nat_scope.

(** ** Specification *)

Definition symbolic_kind (k : jkind) : Prop := exists h, k = KSymbolic h.

(** [l] lists in ascending order the columns of the data whose variable satisfies [P]. *)
Definition positions (j : jpt) (l : list nat) (P : nat -> jkind -> Prop) : Prop :=
  StronglySorted lt l /\ forall i, In i l <-> exists v k, nth_error (variables_from_init j) i = Some (v, k) /\ P v k.

(** Column [i] belongs to the variable [v]. *)
Definition column (j : jpt) (i v : nat) : Prop := exists k, nth_error (variables_from_init j) i = Some (v, k).

(** How many of the first [i] variables satisfy [f]. *)
Definition before (f : jkind -> bool) (j : jpt) (i : nat) : nat := length (filter (fun vk => f (snd vk)) (firstn i (variables_from_init j))).

(** ** Proofs *)

Lemma mem_In v l : mem v l = true <-> In v l.
Proof. unfold mem. rewrite existsb_exists. split; [intros (x & H & E); apply Nat.eqb_eq in E; now subst|intros H; exists v; split; [exact H|apply Nat.eqb_refl]]. Qed.

Lemma enumerate_In {A} (l : list A) i x s : In (i, x) (combine (seq s (length l)) l) <-> s <= i /\ nth_error l (i - s) = Some x.
Proof.
  revert s. induction l as [|y l IH]; intros s; cbn [length seq combine In].
  - split; [tauto|]. intros [_ H]. destruct (i - s); discriminate.
  - rewrite IH. split.
    + intros [E|[H1 H2]]; [injection E as <- <-; rewrite Nat.sub_diag; split; [lia|reflexivity]|]. split; [lia|]. now replace (i - s) with (S (i - S s)) by lia.
    + intros [H1 H2]. destruct (Nat.eq_dec i s) as [->|Hn]; [left; rewrite Nat.sub_diag in H2; cbn in H2; congruence|]. right. split; [lia|]. now replace (i - s) with (S (i - S s)) in H2 by lia.
Qed.

Lemma indices_sorted variables l : StronglySorted lt (indices_in variables l).
Proof.
  unfold indices_in. generalize 0. induction variables as [|v vs IH]; intros s; [constructor|]. cbn [length seq combine filter snd].
  assert (G : Forall (lt s) (map fst (filter (fun iv => mem (snd iv) l) (combine (seq (S s) (length vs)) vs)))).
  { apply Forall_forall. intros i Hi. apply in_map_iff in Hi. destruct Hi as ([i' x] & <- & Hi). apply filter_In in Hi. destruct Hi as [Hi _]. apply enumerate_In in Hi. cbn. lia. }
  destruct (mem v l); [cbn [map]; constructor; [apply IH|exact G]|apply IH].
Qed.

Lemma indices_In variables l i : In i (indices_in variables l) <-> exists v, nth_error variables i = Some v /\ In v l.
Proof.
  unfold indices_in. rewrite in_map_iff. split.
  - intros ([i' v] & E & H). cbn in E. subst i'. apply filter_In in H. destruct H as [H1 H2]. apply enumerate_In in H1. rewrite Nat.sub_0_r in H1. cbn in H2. exists v. split; [tauto|now apply mem_In].
  - intros (v & H1 & H2). exists (i, v). split; [reflexivity|]. apply filter_In. split; [apply enumerate_In; rewrite Nat.sub_0_r; split; [lia|exact H1]|]. now apply mem_In.
Qed.

Lemma kind_of_nth j i v k : NoDup (map fst (variables_from_init j)) -> nth_error (variables_from_init j) i = Some (v, k) -> kind_of j v = Some k.
Proof.
  unfold kind_of. generalize (variables_from_init j). intros l. revert i. induction l as [|[w k'] l IH]; intros i HN H; [destruct i; discriminate|].
  cbn [map fst] in HN. inversion HN as [|? ? Hw HN']; subst. cbn [find fst]. destruct i as [|i].
  - cbn in H. injection H as -> ->. now rewrite Nat.eqb_refl.
  - cbn in H. destruct (Nat.eqb_spec w v) as [->|Hn]; [exfalso; apply Hw; apply nth_error_In in H; apply in_map_iff; now exists (v, k)|]. now apply (IH i).
Qed.

Lemma kind_positions (f : jkind -> bool) (P : jkind -> Prop) j l : (forall k, f k = true <-> P k) -> NoDup (map fst (variables_from_init j)) ->
  positions j (indices_in (map fst (variables_from_init j)) (filter (has_kind f j) l)) (fun v k => In v l /\ P k).
Proof.
  intros Hf HN. split; [apply indices_sorted|]. intros i. rewrite indices_In. rewrite nth_error_map. split.
  - intros (v & H1 & H2). destruct (nth_error (variables_from_init j) i) as [[w k]|] eqn:E; cbn in H1; [|discriminate]. injection H1 as <-.
    apply filter_In in H2. destruct H2 as [H2 H3]. exists w, k. split; [reflexivity|]. split; [exact H2|]. apply Hf. unfold has_kind in H3. now rewrite (kind_of_nth j i w k HN E) in H3.
  - intros (v & k & E & H1 & H2). exists v. rewrite E. split; [reflexivity|]. apply filter_In. split; [exact H1|]. unfold has_kind. rewrite (kind_of_nth j i v k HN E). now apply Hf.
Qed.

Lemma numeric_iff k : is_numeric k = true <-> ~ symbolic_kind k.
Proof. unfold symbolic_kind. destruct k; cbn; split; try discriminate; auto; try (intros _ (h & E); discriminate). intros H. exfalso. apply H. eauto. Qed.
Lemma symbolic_iff k : is_symbolic k = true <-> symbolic_kind k.
Proof. unfold symbolic_kind. destruct k; cbn; split; try discriminate; try (intros (h & E); discriminate); eauto. Qed.

Lemma filtered_nth {A} (f : nat * jkind -> bool) (g : nat -> A) : forall l i v k, nth_error l i = Some (v, k) -> f (v, k) = true ->
  nth_error (map g (map fst (filter f l))) (length (filter f (firstn i l))) = Some (g v).
Proof.
  induction l as [|y l IH]; intros [|i] v k H1 H2; try discriminate.
  - cbn in H1. injection H1 as ->. cbn [filter firstn length]. rewrite H2. reflexivity.
  - cbn in H1. cbn [filter firstn]. destruct (f y); cbn [map length nth_error]; now apply (IH i v k).
Qed.

Lemma index_column j v : In v (map fst (variables_from_init j)) -> exists i, index_of (map fst (variables_from_init j)) v = Some i /\ column j i v.
Proof.
  unfold column. generalize (variables_from_init j). induction l as [|[w k] l IH]; cbn [map fst In index_of]; [tauto|]. intros H.
  destruct (Nat.eqb_spec w v) as [->|Hn]; [exists 0; split; [reflexivity|now exists k]|]. destruct H as [H|H]; [congruence|]. destruct (IH H) as (i & E & k' & Hk).
  exists (S i). rewrite E. split; [reflexivity|]. now exists k'.
Qed.

Lemma index_columns j l : known j l -> exists il, mapM (index_of (map fst (variables_from_init j))) l = Some il /\ Forall2 (column j) il l.
Proof.
  unfold mapM. induction l as [|v l IH]; intros H; [exists []; split; [reflexivity|constructor]|].
  destruct (index_column j v) as (i & E & C); [apply H; now left|]. destruct IH as (il & E' & F); [intros w Hw; apply H; now right|].
  rewrite E. rewrite E'. exists (i :: il). split; [reflexivity|]. now constructor.
Qed.

Lemma dict_set_new d k x : ~ In k (map fst d) -> dict_set d k x = d ++ [(k, x)].
Proof.
  induction d as [|[k' y] d IH]; cbn; [reflexivity|]. intros H. destruct (Nat.eqb_spec k' k) as [->|Hn]; [tauto|]. f_equal. apply IH. tauto.
Qed.

Definition dependency (j : jpt) (e : nat * list nat) (d : nat * list nat) : Prop := column j (fst d) (fst e) /\ Forall2 (column j) (snd d) (snd e).

Lemma dependency_loop j : NoDup (map fst (variables_from_init j)) -> forall deps acc done,
  (forall v l, In (v, l) deps -> known j (v :: l)) -> NoDup (map fst (done ++ deps)) -> Forall2 (dependency j) done acc -> NoDup (map fst acc) ->
  exists d, foldM (fun d vl => match index_of (map fst (variables_from_init j)) (fst vl), mapM (index_of (map fst (variables_from_init j))) (snd vl) with
    | Some idx_var, Some idc_dep => Some (dict_set d idx_var idc_dep) | _, _ => None end) deps acc = Some d /\ Forall2 (dependency j) (done ++ deps) d /\ NoDup (map fst d).
Proof.
  intros HN. induction deps as [|[v l] deps IH]; intros acc done HK HD HF HA; [exists acc; rewrite app_nil_r; auto|].
  pose proof (HK v l (or_introl eq_refl)) as K. destruct (index_column j v) as (i & E & Cv); [apply K; now left|].
  destruct (index_columns j l) as (il & E' & Fl); [intros w Hw; apply K; now right|].
  assert (Hnew : ~ In i (map fst acc)).
  { intros Hin. apply in_map_iff in Hin. destruct Hin as ([i' il'] & Ei & Hin). cbn in Ei. subst i'.
    assert (exists e, In e done /\ dependency j e (i, il')) as ([w lw] & H1 & H2 & _).
    { clear - HF Hin. induction HF as [|e d es ds H HF IH]; [destruct Hin|]. destruct Hin as [->|Hin]; [exists e; split; [now left|exact H]|]. destruct (IH Hin) as (e' & H1 & H2). exists e'. split; [now right|exact H2]. }
    destruct Cv as [k1 Cv], H2 as [k2 H2]. cbn in H2. rewrite Cv in H2. injection H2 as -> ->.
    rewrite map_app in HD. cbn [map fst] in HD. apply NoDup_remove_2 in HD. apply HD, in_or_app. left. apply in_map_iff. now exists (w, lw). }
  cbn [foldM fst snd]. rewrite E. rewrite E'. rewrite dict_set_new by exact Hnew.
  destruct (IH (acc ++ [(i, il)]) (done ++ [(v, l)])) as (d & D1 & D2 & D3).
  - intros w lw H. apply HK. now right.
  - now rewrite <- app_assoc.
  - apply Forall2_app; [exact HF|]. constructor; [|constructor]. split; [exact Cv|exact Fl].
  - rewrite map_app. cbn [map fst]. apply (Permutation_NoDup (l := i :: map fst acc)); [apply Permutation_cons_append|]. now constructor.
  - exists d. rewrite <- app_assoc in D2. auto.
Qed.

(** All indices handed to the impurity are the columns of the right variables.  There is one inversion flag for every symbolic
    target, the totals count the variables of both sorts, and the tables of the symbolic and of the numeric variables are in the
    order of the columns. *)
Theorem C87_arguments values std j : NoDup (map fst (variables_from_init j)) -> NoDup (targets j) -> known j (targets j) -> known j (features j) ->
  NoDup (map fst (dependencies j)) -> (forall v l, In (v, l) (dependencies j) -> known j (v :: l)) ->
  exists I, construct_impurity values std j = Some I /\
    i_min_samples_leaf I = min_samples_leaf j /\
    positions j (i_numeric_vars I) (fun v k => In v (targets j) /\ ~ symbolic_kind k) /\
    positions j (i_symbolic_vars I) (fun v k => In v (targets j) /\ symbolic_kind k) /\
    positions j (i_numeric_features I) (fun v k => In v (features j) /\ ~ symbolic_kind k) /\
    positions j (i_symbolic_features I) (fun v k => In v (features j) /\ symbolic_kind k) /\
    i_invert_impurity I = map (fun _ => 0) (i_symbolic_vars I) /\
    i_n_sym_vars_total I + i_n_num_vars_total I = length (variables_from_init j) /\
    length (i_symbols I) = i_n_sym_vars_total I /\ length (i_max_variances I) = i_n_num_vars_total I /\
    (forall i v k, nth_error (variables_from_init j) i = Some (v, k) ->
       (symbolic_kind k -> nth_error (i_symbols I) (before is_symbolic j i) = Some (values v)) /\
       (~ symbolic_kind k -> nth_error (i_max_variances I) (before is_numeric j i) = Some (std v * std v)%R)) /\
    Forall2 (dependency j) (dependencies j) (i_dependency_indices I) /\ NoDup (map fst (i_dependency_indices I)).
Proof.
  intros HN HT K1 K2 HD Kd. unfold construct_impurity, dependency_indices.
  destruct (dependency_loop j HN (dependencies j) [] [] Kd HD (Forall2_nil _) (NoDup_nil _)) as (d & E & D1 & D2). rewrite E.
  eexists. split; [reflexivity|]. cbn [i_min_samples_leaf i_numeric_vars i_symbolic_vars i_numeric_features i_symbolic_features i_invert_impurity i_n_sym_vars_total i_n_num_vars_total i_symbols i_max_variances i_dependency_indices].
  split; [reflexivity|]. split; [exact (kind_positions _ _ j _ numeric_iff HN)|]. split; [exact (kind_positions _ _ j _ symbolic_iff HN)|].
  split; [exact (kind_positions _ _ j _ numeric_iff HN)|]. split; [exact (kind_positions _ _ j _ symbolic_iff HN)|]. split.
  - assert (L : length (symbolic_targets j) = length (indices_in (map fst (variables_from_init j)) (symbolic_targets j))).
    { set (vs := map fst (variables_from_init j)) in *. set (ts := symbolic_targets j).
      assert (Nt : NoDup ts) by (unfold ts, symbolic_targets; now apply NoDup_filter).
      assert (It : forall v, In v ts -> In v vs) by (intros v Hv; apply K1; unfold ts, symbolic_targets in Hv; now apply filter_In in Hv).
      assert (M : Permutation (map (fun i => nth i vs 0) (indices_in vs ts)) ts).
      { apply NoDup_Permutation; [|exact Nt|].
        - assert (G : forall l, StronglySorted lt l -> (forall i, In i l -> i < length vs) -> NoDup (map (fun i => nth i vs 0) l)).
          { induction 1 as [|x l Hs IHs Hx]; intros B; [constructor|]. cbn [map]. constructor; [|apply IHs; intros i Hi; apply B; now right].
            rewrite in_map_iff. intros (y & Ey & Hy). rewrite Forall_forall in Hx. specialize (Hx y Hy).
            assert (y = x) by (apply (proj1 (NoDup_nth vs 0) HN); [apply B; now right|apply B; now left|exact Ey]). lia. }
          apply G; [apply indices_sorted|]. intros i Hi. apply indices_In in Hi. destruct Hi as (v & H & _). apply nth_error_Some. congruence.
        - intros v. rewrite in_map_iff. split.
          + intros (i & Ei & Hi). apply indices_In in Hi. destruct Hi as (w & H1 & H2). apply nth_error_nth with (d := 0) in H1. congruence.
          + intros Hv. destruct (In_nth_error vs v (It v Hv)) as [i Hi]. exists i. split; [now apply nth_error_nth|]. apply indices_In. eauto. }
      apply Permutation_length in M. now rewrite map_length in M. }
    rewrite L. generalize (indices_in (map fst (variables_from_init j)) (symbolic_targets j)). induction l as [|x l IH]; cbn; congruence.
  - unfold symbolic_variables, numeric_variables. rewrite !map_length. split.
    { generalize (variables_from_init j). induction l as [|[v k] l IH]; [reflexivity|]. destruct k; cbn in *; lia. }
    split; [reflexivity|]. split; [reflexivity|]. split; [|split; [exact D1|exact D2]].
    intros i v k Hi. split; intros Hk; unfold before.
    + apply (filtered_nth (fun vk => is_symbolic (snd vk)) values _ i v k Hi). now apply symbolic_iff.
    + replace (std v * std v)%R with ((fun w => (std w ^ 2)%R) v) by (cbv beta; cbn; ring).
      apply (filtered_nth (fun vk => is_numeric (snd vk)) (fun w => (std w ^ 2)%R) _ i v k Hi). now apply numeric_iff.
Qed.

(** Two numeric variables and a symbolic one between them; the symbolic one is the only target. *)
Example three_columns : exists I, construct_impurity (fun _ => 4) (fun v => INR v) (init [(2, KInteger); (0, KInteger); (1, KSymbolic (fun z => z))] (Some [1]) None 1 0 PInf PInf None) = Some I /\
  i_numeric_vars I = [] /\ i_symbolic_vars I = [1] /\ i_numeric_features I = [0; 2] /\ i_symbols I = [4] /\ i_dependency_indices I = [(0, [1]); (2, [1])].
Proof. eexists. repeat split; reflexivity. Qed.

Print Assumptions C87_arguments.
