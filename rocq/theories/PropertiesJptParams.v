(** * Properties C45 - C47: the parameters of joint probability trees *)
From Coq Require Import List Arith Bool Lia ZArith Reals Lra Permutation Sorted.
From Verif Require Import Num Graph Spec Circuit EvalFacts Interval Dist DistFacts Simplify Copy Heap Layout Nyga Jpt.
Import ListNotations.
Local Set Bullet Behavior "Strict Subproofs".
Local Open Scope R_scope.

(** ** Sorting *)
Lemma sort_insert_perm {A} (key : A -> nat) x l : Permutation (sort_insert key x l) (x :: l).
Proof. induction l as [|y l IH]; cbn; [auto|]. destruct (_ <=? _)%nat; [auto|]. rewrite IH. apply perm_swap. Qed.
Lemma sorted_by_perm {A} (key : A -> nat) l : Permutation (sorted_by key l) l.
Proof. induction l as [|x l IH]; cbn; [auto|]. rewrite sort_insert_perm. now constructor. Qed.

Definition by_key {A} (key : A -> nat) (x y : A) : Prop := (key x <= key y)%nat.

Lemma sort_insert_sorted {A} (key : A -> nat) x l : StronglySorted (by_key key) l -> StronglySorted (by_key key) (sort_insert key x l).
Proof.
  induction 1 as [|y l Hs IH Hy]; cbn; [repeat constructor|]. destruct (Nat.leb_spec (key x) (key y)).
  - constructor; [now constructor|]. constructor; [exact H|]. eapply Forall_impl; [|exact Hy]. unfold by_key. intros. lia.
  - constructor; [exact IH|]. eapply Permutation_Forall; [apply Permutation_sym, sort_insert_perm|]. constructor; [unfold by_key; lia|exact Hy].
Qed.
Lemma sorted_by_sorted {A} (key : A -> nat) l : StronglySorted (by_key key) (sorted_by key l).
Proof. induction l as [|x l IH]; cbn; [constructor|]. now apply sort_insert_sorted. Qed.

Lemma sorted_keys {A} (key : A -> nat) l : StronglySorted (by_key key) l -> StronglySorted le (map key l).
Proof. induction 1; cbn; constructor; auto. now apply Forall_map. Qed.

Lemma sset_weak l : StronglySorted lt l -> StronglySorted le l.
Proof. induction 1 as [|x l Hs IH Hx]; constructor; auto. eapply Forall_impl; [|exact Hx]. lia. Qed.

Lemma sset_of_sorted_id l : StronglySorted lt l -> sset_of l = l.
Proof.
  induction 1 as [|x l Hs IH Hx]; [reflexivity|]. unfold sset_of in *. cbn [fold_right]. rewrite IH. destruct l as [|y l]; [reflexivity|]. cbn. inversion Hx; subst.
  now rewrite (proj2 (Nat.compare_lt_iff x y)).
Qed.

Lemma sort_by_id {A} (key : A -> nat) l : StronglySorted (by_key key) l -> sorted_by key l = l.
Proof.
  induction 1 as [|x l Hs IH Hx]; [reflexivity|]. unfold sorted_by in *. cbn [fold_right]. rewrite IH. destruct l as [|y l]; [reflexivity|]. cbn. inversion Hx; subst. unfold by_key in *.
  now rewrite (proj2 (Nat.leb_le _ _)).
Qed.

Lemma without_In a b v : In v (without a b) <-> In v a /\ ~ In v b.
Proof.
  unfold without. rewrite sset_of_In, filter_In, negb_true_iff. split; intros [H1 H2]; (split; [exact H1|]).
  - intros H. assert (existsb (Nat.eqb v) b = true) by (apply existsb_exists; exists v; split; [exact H|apply Nat.eqb_refl]). congruence.
  - destruct (existsb (Nat.eqb v) b) eqn:E; [|reflexivity]. apply existsb_exists in E. destruct E as (w & Hw & E). apply Nat.eqb_eq in E. subst. contradiction.
Qed.

(** ** C45 *)
(** What the targets and features should be for the variables [vars] and the given lists. *)
Definition selection (vars : list nat) (ts fs : option (list nat)) (t f : list nat) : Prop :=
  match ts, fs with
  | None, None => Permutation t vars /\ Permutation f vars
  | None, Some fs => NoDup t /\ (forall v, In v t <-> In v vars /\ ~ In v fs) /\ Permutation f fs
  | Some ts, None => NoDup t /\ (forall v, In v t <-> In v ts) /\ NoDup f /\ (forall v, In v f <-> In v vars /\ ~ In v ts)
  | Some ts, Some fs => NoDup t /\ (forall v, In v t <-> In v ts) /\ NoDup f /\ (forall v, In v f <-> In v fs)
  end.

Theorem C45_targets_and_features vars ts fs msl imp ml md deps :
  let j := init vars ts fs msl imp ml md deps in
  StronglySorted le (targets j) /\ StronglySorted le (features j) /\ selection (map fst vars) ts fs (targets j) (features j).
Proof.
  assert (Hp : Permutation (map fst (sorted_by fst vars)) (map fst vars)) by apply Permutation_map, sorted_by_perm.
  assert (Hs : StronglySorted le (map fst (sorted_by fst vars))) by (apply sorted_keys, sorted_by_sorted).
  assert (Hw : forall b v, In v (without (map fst (sorted_by fst vars)) b) <-> In v (map fst vars) /\ ~ In v b).
  { intros b v. rewrite without_In. split; intros [H1 H2]; (split; [|exact H2]); [eapply Permutation_in; eauto|eapply Permutation_in; [apply Permutation_sym|]; eauto]. }
  assert (HN : forall l, NoDup (sset_of l)) by (intros l; apply SSorted_NoDup, sset_of_sorted).
  assert (HS : forall l, StronglySorted le (sset_of l)) by (intros l; apply sset_weak, sset_of_sorted).
  unfold init, set_targets_and_features. destruct ts as [ts|], fs as [fs|]; cbn [targets features selection].
  - repeat split; auto; apply sset_of_In.
  - split; [apply HS|]. split; [apply HS|]. split; [apply HN|]. split; [apply sset_of_In|]. split; [apply HN|]. apply Hw.
  - split; [apply HS|]. split; [|split; [apply HN|split; [apply Hw|apply sorted_by_perm]]].
    assert (X := sorted_keys _ _ (sorted_by_sorted (fun x : nat => x) fs)). now rewrite map_id in X.
  - auto.
Qed.

Example C45_case : let j := init [(3, KInteger); (1, KInteger); (2, KInteger)]%nat None (Some [2; 2]%nat) 1 0 PInf PInf None in targets j = [1; 3]%nat /\ features j = [2; 2]%nat /\ dependencies j = [(2, [1; 3]); (2, [1; 3])]%nat.
Proof. repeat split. Qed.

(** ** C46 *)
(** A JPT as any sequence of constructor calls and fits leaves it. *)
Definition constructed (j : jpt) : Prop := exists vars ts fs msl imp ml md deps n,
  j = with_total (init vars ts fs msl imp ml md deps) n.

(** The properties of the claim agree. *)
Definition same_parameters (j j' : jpt) : Prop :=
  min_samples_leaf j' = min_samples_leaf j /\ max_leaves j' = max_leaves j /\ max_depth j' = max_depth j /\ targets j' = targets j /\ features j' = features j /\
  dependencies j' = dependencies j /\ total_samples j' = total_samples j.

Definition C46_json_full : Prop := forall j, constructed j -> exists j', parameters_from_json (to_json j) = Some j' /\ same_parameters j j'.
Definition C46_copy_full : Prop := forall j, constructed j -> same_parameters j (empty_copy j).

(** All names belong to variables of the JPT. *)
Definition known (j : jpt) (l : list nat) : Prop := forall v, In v l -> In v (map fst (variables_from_init j)).

Lemma lookup_known j v : In v (map fst (variables_from_init j)) -> lookup_name (variables_from_init j) v = Some v.
Proof.
  intros H. unfold lookup_name. replace (existsb _ _) with true; [reflexivity|]. symmetry. apply existsb_exists. exists v. split; [exact H|apply Nat.eqb_refl].
Qed.
Lemma lookup_all j l : known j l -> mapM (lookup_name (variables_from_init j)) l = Some l.
Proof.
  unfold mapM. induction l as [|v l IH]; intros H; [reflexivity|]. rewrite lookup_known by (apply H; now left). rewrite IH; [reflexivity|]. intros w Hw. apply H. now right.
Qed.

Lemma constructed_targets j : constructed j -> StronglySorted le (targets j) /\ StronglySorted le (features j) /\ StronglySorted (by_key fst) (variables_from_init j).
Proof.
  intros (vars & ts & fs & msl & imp & ml & md & deps & n & ->).
  destruct (C45_targets_and_features vars ts fs msl imp ml md deps) as (A & B & _). split; [exact A|]. split; [exact B|].
  unfold init. destruct (set_targets_and_features _ _ _). apply sorted_by_sorted.
Qed.

Lemma sorted_NoDup_lt l : StronglySorted le l -> NoDup l -> StronglySorted lt l.
Proof.
  induction 1 as [|x l Hs IH Hx]; intros N; inversion N; subst; constructor; auto. rewrite Forall_forall in *. intros y Hy. assert (x <> y) by congruence. specialize (Hx y Hy). lia.
Qed.

(** The round trip through JSON keeps every parameter if no target or feature is listed twice and all names are known. *)
Theorem C46_json_partial j : constructed j -> NoDup (targets j) -> NoDup (features j) -> known j (targets j) -> known j (features j) ->
  (forall v l, In (v, l) (dependencies j) -> known j (v :: l)) -> parameters_from_json (to_json j) = Some j.
Proof.
  intros Hc N1 N2 K1 K2 Kd. destruct (constructed_targets j Hc) as (S1 & S2 & S3). unfold parameters_from_json, to_json.
  cbn [js_variables js_targets js_features js_dependencies js_min_samples_leaf js_min_impurity_improvement js_max_leaves js_max_depth js_total_samples].
  rewrite (lookup_all j _ K1), (lookup_all j _ K2).
  replace (mapM _ (dependencies j)) with (Some (dependencies j)).
  - unfold init, set_targets_and_features. cbn [variables_from_init targets features raw_min_samples_leaf min_impurity_improvement max_leaves max_depth dependencies].
    rewrite (sort_by_id fst _ S3). rewrite !sset_of_sorted_id by (apply sorted_NoDup_lt; auto). now destruct j.
  - symmetry. unfold mapM. induction (dependencies j) as [|[v l] deps IH]; [reflexivity|]. cbn [fst snd].
    assert (K := Kd v l (or_introl eq_refl)). rewrite lookup_known by (apply K; now left).
    pose proof (lookup_all j l (fun w Hw => K w (or_intror Hw))) as E. unfold mapM in E. rewrite E. rewrite IH; [reflexivity|]. intros w l' H. apply Kd. now right.
Qed.

(** An empty copy keeps the sorted, duplicate free targets and features, the depth limit and the dependencies; it keeps the
    other parameters if they have their default values: no limit of leaves, an absolute minimum of samples, a fresh JPT. *)
Theorem C46_copy_partial j : constructed j -> NoDup (targets j) -> NoDup (features j) ->
  (max_depth (empty_copy j) = max_depth j /\ targets (empty_copy j) = targets j /\ features (empty_copy j) = features j /\ dependencies (empty_copy j) = dependencies j) /\
  (1 <= raw_min_samples_leaf j -> min_samples_leaf (empty_copy j) = min_samples_leaf j) /\
  (max_leaves j = PInf -> max_leaves (empty_copy j) = max_leaves j) /\
  (total_samples j = 1%nat -> total_samples (empty_copy j) = total_samples j).
Proof.
  intros Hc N1 N2. destruct (constructed_targets j Hc) as (S1 & S2 & S3). unfold empty_copy, init, set_targets_and_features.
  cbn [variables_from_init targets features raw_min_samples_leaf min_impurity_improvement max_leaves max_depth dependencies total_samples].
  rewrite !sset_of_sorted_id by (apply sorted_NoDup_lt; auto). repeat split; auto.
  intros H. unfold min_samples_leaf. cbn [raw_min_samples_leaf total_samples]. assert (E : Rltb (raw_min_samples_leaf j) 1 = false) by (rb; auto; lra). now rewrite E, E.
Qed.

Lemma constructed_init vars ts fs msl imp ml md deps : constructed (init vars ts fs msl imp ml md deps).
Proof. exists vars, ts, fs, msl, imp, ml, md, deps, 1%nat. unfold init. now destruct (set_targets_and_features _ _ _). Qed.
Lemma constructed_total vars ts fs msl imp ml md deps n : constructed (with_total (init vars ts fs msl imp ml md deps) n).
Proof. exists vars, ts, fs, msl, imp, ml, md, deps, n. reflexivity. Qed.

(** A feature listed twice is kept by the constructor when no targets are given, but not by the round trip. *)
Theorem C46_json_refuted : ~ C46_json_full.
Proof.
  intros F. set (j := init [(1, KInteger); (2, KInteger)]%nat None (Some [2; 2]%nat) 1 0 PInf PInf None).
  destruct (F j) as (j' & E & S).
  - apply constructed_init.
  - unfold j in E. cbn in E. injection E as <-. destruct S as (_ & _ & _ & _ & S & _). discriminate S.
Qed.

(** The limit of leaves is not copied. *)
Theorem C46_copy_refuted : ~ C46_copy_full.
Proof.
  intros F. destruct (F (init [(1, KInteger)]%nat None None 1 0 (Fin 4) PInf None)) as (_ & S & _); [apply constructed_init|discriminate S].
Qed.

(** A relative minimum of samples is copied as the absolute number it stands for, and the number of samples is not copied, so
    with a minimum below one sample the copy's minimum changes even if no limit of leaves is set. *)
Theorem C46_copy_samples_refuted : ~ (forall j, constructed j -> max_leaves j = PInf -> total_samples (empty_copy j) = total_samples j).
Proof.
  intros F. specialize (F (with_total (init [(1, KInteger)]%nat None None 1 0 PInf PInf None) 7)). discriminate (F (constructed_total _ _ _ _ _ _ _ _ _) eq_refl).
Qed.

Example C46_case : let j := with_total (init [(3, KInteger); (1, KInteger); (2, KInteger)]%nat None (Some [2]%nat) (1/10) 0 (Fin 5) (Fin 3) None) 40 in
  constructed j /\ NoDup (targets j) /\ NoDup (features j) /\ known j (targets j) /\ known j (features j) /\ forall v l, In (v, l) (dependencies j) -> known j (v :: l).
Proof.
  intros j. split; [apply constructed_total|]. cbn. split; [repeat constructor; cbn; lia|]. split; [repeat constructor; cbn; lia|].
  split; [intros v Hv; cbn in *; lia|]. split; [intros v Hv; cbn in *; lia|]. intros v l [X|[]]. injection X as <- <-. intros v Hv. cbn in *. lia.
Qed.

(** ** C47 *)
Theorem C47_encode_decode mean std x : std <> 0 -> decode mean std (encode mean std (Fin x)) = Fin x /\ encode mean std (decode mean std (Fin x)) = Fin x.
Proof.
  intros H. unfold decode, encode. cbn [nsub nopp nadd nmul]. rewrite !ndiv_Fin by exact H. cbn [nmul nadd]. split; f_equal; field; exact H.
Qed.

(** Encoding standardises: the mean goes to zero, one standard deviation above it to one. *)
Theorem C47_standardised mean std : std <> 0 -> encode mean std (Fin mean) = Fin 0 /\ encode mean std (Fin (mean + std)) = Fin 1.
Proof. intros H. unfold encode. cbn [nsub nopp nadd]. rewrite !ndiv_Fin by exact H. split; f_equal; field; exact H. Qed.

Example C47_case : encode 1 2 (Fin 5) = Fin 2.
Proof. unfold encode. cbn [nsub nopp nadd]. rewrite ndiv_Fin by lra. f_equal. lra. Qed.

Print Assumptions C45_targets_and_features.
Print Assumptions C46_json_partial.
Print Assumptions C46_copy_partial.
Print Assumptions C46_json_refuted.
Print Assumptions C46_copy_refuted.
Print Assumptions C46_copy_samples_refuted.
Print Assumptions C47_encode_decode.
Print Assumptions C47_standardised.
