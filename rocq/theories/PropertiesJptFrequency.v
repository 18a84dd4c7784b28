(** * Property C90: a fitted joint probability tree reproduces the frequencies of the data *)
From Coq Require Import List Arith Bool Lia ZArith Reals Lra Permutation.
From Verif Require Import Num Graph GraphFacts Spec SpecFacts Circuit EvalFacts Interval Dist DistFacts LeafCond ModeFacts TreeProb Layout LayoutFacts Star
  PropertiesProb PropertiesDist Nyga NygaFacts PropertiesNyga Jpt JptFacts PropertiesJpt PropertiesJptModel.
Import ListNotations.
Local Set Bullet Behavior "Strict Subproofs".
Local Open Scope R_scope.

(** ** Specification *)

(** The portion of a list with a property. *)
Definition portion {X} (P : X -> bool) (l : list X) : R := INR (length (filter P l)) / INR (length l).

(** What an entry of a column means: a symbol is known by its hash, an integer is itself. *)
Definition meaning (k : jkind) (x : R) : R :=
  match k with KContinuous _ _ _ => x | KSymbolic h => IZR (h (Int_part x)) | KInteger => IZR (Int_part x) end.

(** The entry at position [i] of a row lies in [A]. *)
Definition entry_in (k : jkind) (i : nat) (A : evset) (r : row) : bool :=
  match nth_error r i with Some x => in_evset A (meaning k x) | None => false end.

(** The assignment fits the variable.  A continuous variable is not constrained within the range of its column [c]. *)
Definition asks (k : jkind) (c : list R) (A : evset) : Prop :=
  match k, A with
  | KSymbolic _, ESym l => NoDup l
  | KInteger, EInt A => interval_ok A /\ A <> [] /\ forall x, In x c -> Dist.pyhash (Int_part x) = Int_part x
  | KContinuous _ _ _, EInt A => interval_ok A /\ A <> [] /\ forall a b x, In a c -> In b c -> a <= x <= b -> in_interval A x = true
  | _, _ => False
  end.

Definition asks_all (vars : list (nat * jkind)) (data : list row) (e : sevent) : Prop :=
  forall i v k c, nth_error vars i = Some (v, k) -> column data i = Some c -> asks k c (e v).

(** The portion of the rows that have their entry for the variable at position [i] in the event. *)
Definition share (vars : list (nat * jkind)) (e : sevent) (rows : list row) (i : nat) : R :=
  match nth_error vars i with Some (v, k) => portion (entry_in k i (e v)) rows | None => 1 end.

(** The portion of the rows that a group has, times the portions of the group for the single variables: within a group the variables are independent. *)
Definition grouped (vars : list (nat * jkind)) (data : list row) (groups : list (list row)) (e : sevent) : R :=
  Rsum (map (fun g => INR (length g) / INR (length data) * Rprod (map (share vars e g) (seq 0 (length vars)))) groups).

(** ** Proof *)

(** *** Discrete columns *)
Lemma count_filter (P : Z -> bool) data : forall l, NoDup l -> (forall x, In x data -> In x l) ->
  Rsum (map (fun x => ind (P x) * INR (count_occ Z.eq_dec data x)) l) = INR (length (filter P data)).
Proof.
  intros l Hn. induction data as [|y data IH]; intros Hl.
  - cbn [filter length]. apply Rsum_zero. intros. cbn. ring.
  - rewrite (Rsum_ext _ (fun x => ind (P x) * INR (count_occ Z.eq_dec data x) + (if Z.eq_dec y x then ind (P y) else 0))).
    + rewrite Rsum_plus, IH by (intros; apply Hl; now right).
      assert (E : Rsum (map (fun x => if Z.eq_dec y x then ind (P y) else 0) l) = ind (P y)).
      { assert (Hy : In y l) by (apply Hl; now left). clear - Hn Hy. induction l as [|z l IH]; [destruct Hy|].
        inversion Hn; subst. simpl. destruct (Z.eq_dec y z) as [<-|Hne].
        - rewrite Rsum_zero; [lra|]. intros x Hx. destruct (Z.eq_dec y x); congruence.
        - destruct Hy as [->|Hy]; [congruence|]. rewrite IH by auto. lra. }
      rewrite E. cbn [filter]. destruct (P y); unfold ind; cbn [length]; [rewrite S_INR; reflexivity|lra].
    + intros x _. cbn [count_occ]. destruct (Z.eq_dec y x) as [->|]; [rewrite S_INR; ring|ring].
Qed.

Lemma dfit_portion h data (f : Z -> bool) : data <> [] -> (forall x y, In x data -> In y data -> h x = h y -> x = y) ->
  Rsum (map (fun kv => ind (f (fst kv)) * snd kv) (dfit h data)) = portion (fun x => f (h x)) data.
Proof.
  intros Hne Hh. rewrite dfit_map by exact Hh. rewrite map_map. cbn [fst snd]. unfold portion.
  assert (N : INR (length data) <> 0) by (apply not_0_INR; destruct data; [contradiction|discriminate]).
  rewrite <- (count_filter (fun x => f (h x)) data (Dist.np_unique data)).
  - unfold Rdiv. rewrite Rmult_comm, <- Rsum_scal. apply Rsum_ext. intros x _. rewrite count_spec. field. exact N.
  - apply sorted_NoDup, np_unique_sorted.
  - intros x. apply np_unique_In.
Qed.

Lemma portion_map {X Y} (f : X -> Y) P l : portion P (map f l) = portion (fun x => P (f x)) l.
Proof.
  unfold portion. rewrite map_length. f_equal. f_equal. induction l as [|x l IH]; [reflexivity|]. cbn [map filter]. destruct (P (f x)); cbn [length]; now rewrite IH.
Qed.

Lemma portion_ext {X} (P Q : X -> bool) l : (forall x, In x l -> P x = Q x) -> portion P l = portion Q l.
Proof. intros H. unfold portion. now rewrite (filter_ext_in _ _ _ H). Qed.

Lemma portion_all {X} (P : X -> bool) l : l <> [] -> (forall x, In x l -> P x = true) -> portion P l = 1.
Proof.
  intros Hne H. rewrite (portion_ext P (fun _ => true)) by exact H. unfold portion.
  assert (E : filter (fun _ : X => true) l = l) by (clear; induction l as [|x l IH]; cbn; congruence). rewrite E. field. apply not_0_INR. destruct l; [contradiction|discriminate].
Qed.

(** *** Continuous columns *)
Lemma unif_inside v i A : dist_ok (DUnif v i) -> evset_ok (DUnif v i) (EInt A) -> (forall x, in_sint i x = true -> in_interval A x = true) -> probR (DUnif v i) (EInt A) = 1.
Proof.
  intros Hok HA Hin. apply Rle_antisym; [now apply probR_le_1|].
  destruct (support_inter_prob (DUnif v i) [ireals] I Hok Interval.ireals_ok) as (S1 & S2 & _).
  assert (T : probR (DUnif v i) (EInt [ireals]) = 1). { apply probR_total; [exact Hok|split; [apply Interval.ireals_ok|discriminate]|]. intros x. reflexivity. }
  rewrite T in S2. rewrite <- S2. apply probR_mono; auto.
  - split; [exact S1|]. intros X. rewrite X in S2. unfold probR, measure in S2. cbn in S2. lra.
  - intros x Hx. cbn [in_evset] in *. apply Hin. destruct (cont_support (DUnif v i) I Hok) as (j & E & Oj & _). cbn [support1] in E. injection E as <-.
    unfold support_inter in Hx. cbn [support1] in Hx. rewrite in_interval_inter in Hx by (try apply Interval.ireals_ok; constructor; auto).
    apply andb_true_iff in Hx. destruct Hx as [Hx _]. unfold in_interval in Hx. cbn [existsb] in Hx. now rewrite orb_false_r in Hx.
Qed.

(** *** One column of one leaf *)
Lemma column_share fuel v k c (e : sevent) u : c <> [] -> column_ok k c -> (2 * length c <= fuel)%nat -> fit_column fuel v k c = Some u -> asks k c (e v) ->
  all_leaves (fun d => evset_ok d (e (dvar d))) u /\ semR (fun d => probR d (e (dvar d))) u = portion (fun x => in_evset (e v) (meaning k x)) c.
Proof.
  intros Hne Hok Hf E Ha. destruct k as [md imp q|h|]; cbn [fit_column column_ok asks meaning] in *.
  - destruct (e v) as [A|] eqn:EA; [|contradiction]. destruct Ha as (A1 & A2 & A3). cbn [in_evset].
    assert (P1 : portion (fun x => in_interval A x) c = 1) by (apply portion_all; [exact Hne|intros x Hx; apply (A3 x x); auto; lra]). rewrite P1.
    destruct Hok as [Hq Himp]. destruct (one_value c Hne) as [H2|(x & Ex & Hx)].
    + destruct (C40_nyga_partial log_likelihood_without_split log_likelihood_of_split v q imp c Hq Himp H2) as (leaves & Q & Ft). unfold Nyga.fit in E. rewrite (Ft fuel Hf) in E.
      unfold mixture_of in E. set (l := map _ leaves) in E.
      assert (Hl : l <> []). { intros X. apply map_eq_nil in X. pose proof (q_total _ _ _ _ Q) as T. rewrite X in T. cbn in T. lra. }
      rewrite (nyga_root_star l Hl) in E. injection E as <-.
      assert (K : forall wi, In wi leaves -> evset_ok (DUnif v (snd wi)) (EInt A) /\ probR (DUnif v (snd wi)) (EInt A) = 1).
      { intros wi Hwi. assert (O : dist_ok (DUnif v (snd wi))). { destruct (q_proper _ _ _ _ Q wi Hwi) as (a & b & cl & -> & Hab). exists a, b. auto. }
        split; [split; auto|]. apply unif_inside; [exact O|split; auto|]. intros y Hy.
        assert (C : in_interval (map snd leaves) y = true) by (apply existsb_exists; exists (snd wi); split; [now apply in_map|exact Hy]).
        apply (q_cover _ _ _ _ Q) in C. destruct C as (a & b & Ia & Ib & Hab). eauto. }
      split.
      * apply star_leaves. unfold l. apply Forall_map, Forall_forall. intros wi Hwi. cbn [snd dvar]. rewrite EA. apply (K wi Hwi).
      * unfold star. cbn [semR]. unfold l. rewrite !map_map. cbn [fst snd semR dvar]. rewrite EA. rewrite <- (q_total _ _ _ _ Q). apply Rsum_ext. intros wi Hwi. rewrite (proj2 (K wi Hwi)).
        rewrite (proj2 (ModeFacts.wexp_nlog (fst wi) (Rlt_le _ _ (proj1 (q_weights _ _ _ _ Q wi Hwi))))). ring.
    + unfold Nyga.fit, fit_with in E. rewrite Ex in E. injection E as <-. cbn [all_leaves semR dvar]. rewrite EA. split; [split; auto|]. cbn [probR in_evset]. rewrite (A3 x x x) by (auto; lra). reflexivity.
  - destruct (e v) as [|m] eqn:EA; [contradiction|]. injection E as <-. cbn [all_leaves semR dvar]. rewrite EA. split; [exact Ha|]. cbn [probR].
    rewrite (dfit_portion h (map Int_part c) (fun z => in_evset (ESym m) (IZR z))).
    + rewrite portion_map. reflexivity.
    + destruct c; [contradiction|discriminate].
    + intros x y Hx Hy. apply in_map_iff in Hx, Hy. destruct Hx as (x' & <- & Hx), Hy as (y' & <- & Hy). auto.
  - destruct (e v) as [A|] eqn:EA; [|contradiction]. destruct Ha as (A1 & A2 & A3). injection E as <-. cbn [all_leaves semR dvar]. rewrite EA. split; [split; auto|]. cbn [probR].
    rewrite (dfit_portion Dist.pyhash (map Int_part c) (fun z => in_evset (EInt A) (IZR z))).
    + rewrite portion_map. apply portion_ext. intros x Hx. now rewrite A3.
    + destruct c; [contradiction|discriminate].
    + intros x y Hx Hy. apply in_map_iff in Hx, Hy. destruct Hx as (x' & <- & Hx), Hy as (y' & <- & Hy). rewrite !A3 by auto. auto.
Qed.

(** *** One leaf *)
Lemma column_portion k i A rows c : column rows i = Some c -> portion (fun x => in_evset A (meaning k x)) c = portion (entry_in k i A) rows.
Proof.
  intros H. unfold column in H. apply mapM_Forall2 in H. unfold portion.
  assert (L : length c = length rows) by (clear -H; induction H; cbn; auto). rewrite L. f_equal. f_equal. clear L.
  induction H as [|r x rows c H HF IH]; [reflexivity|]. cbn [filter]. replace (entry_in k i A r) with (in_evset A (meaning k x)) by (unfold entry_in; now rewrite H). destruct (in_evset A (meaning k x)); cbn [length]; now rewrite IH.
Qed.

Lemma create_share fuel vars data rows (e : sevent) u : table_ok vars data -> rows <> [] -> incl rows data -> (2 * length rows <= fuel)%nat -> asks_all vars data e ->
  create_leaf_node fuel vars rows = Some u ->
  all_leaves (fun d => evset_ok d (e (dvar d))) u /\ semR (fun d => probR d (e (dvar d))) u = Rprod (map (share vars e rows) (seq 0 (length vars))).
Proof.
  intros (HN & HL & HC) Hne Hin Hf Ha E. unfold create_leaf_node in E.
  assert (HLr : Forall (fun r : row => length r = length vars) rows) by (rewrite Forall_forall in *; auto).
  set (f := fun iv : nat * (nat * jkind) => match column rows (fst iv) with None => None | Some c => fit_column fuel (fst (snd iv)) (snd (snd iv)) c end) in *.
  assert (G : forall vs k us, (forall i v, nth_error vs i = Some v -> nth_error vars (k + i) = Some v) -> mapM f (combine (seq k (length vs)) vs) = Some us ->
    Forall (all_leaves (fun d => evset_ok d (e (dvar d)))) us /\ map (semR (fun d => probR d (e (dvar d)))) us = map (share vars e rows) (seq k (length vs))).
  { induction vs as [|[v kd] vs IH]; intros k us Hvs E'; [injection E' as <-; split; [constructor|reflexivity]|]. cbn [length seq combine] in E'. unfold mapM in E', IH.
    destruct (f (k, (v, kd))) as [u0|] eqn:Ef; [|discriminate]. match type of E' with match ?X with _ => _ end = _ => destruct X as [us'|] eqn:Em; [|discriminate] end. injection E' as <-.
    destruct (IH (S k) us') as (I1 & I2); auto. { intros i w Hi. rewrite <- (Hvs (S i) w Hi). f_equal. lia. }
    assert (Hk : nth_error vars k = Some (v, kd)). { rewrite <- (Hvs 0%nat (v, kd) eq_refl). f_equal. lia. }
    assert (Hlt : (k < length vars)%nat) by (apply nth_error_Some; congruence).
    unfold f in Ef. cbn [fst snd] in Ef. destruct (column rows k) as [c|] eqn:Ec; [|discriminate]. destruct (column_total data k _ HL Hlt) as (cd & Ecd). destruct (column_In _ _ _ Ec) as [Lc Ic]. destruct (column_In _ _ _ Ecd) as [_ Icd].
    assert (Hic : incl c cd) by (intros x Hx; apply Ic in Hx; destruct Hx as (r & Hr & E1); apply Icd; eauto).
    destruct (column_share fuel v kd c e u0) as (S1 & S2); auto.
    - intros ->. destruct rows; [contradiction|discriminate].
    - eapply column_ok_incl; [exact Hic|]. eapply HC; eauto.
    - lia.
    - specialize (Ha k v kd cd Hk Ecd). destruct kd, (e v); cbn [asks] in *; auto; destruct Ha as (Z1 & Z2 & Z3); repeat split; auto; try apply Z1; intros; eauto.
    - split; [constructor; auto|]. cbn [map length seq]. rewrite I2. f_equal. rewrite S2. unfold share. rewrite Hk. now apply column_portion. }
  destruct (mapM f _) as [us|] eqn:Em; [|discriminate]. injection E as <-. destruct (G vars 0%nat us) as (G1 & G2); auto. cbn [all_leaves semR]. rewrite G2. split; [now apply fold_and_Forall|reflexivity].
Qed.

(** *** The tree *)
Definition at_index (data : list row) (i : nat) : row := nth i data [].

Lemma fetch_map (data : list row) l rows : mapM (nth_error data) l = Some rows -> rows = map (at_index data) l.
Proof.
  intros H. apply mapM_Forall2 in H. induction H as [|i r l rows H HF IH]; [reflexivity|]. cbn [map]. rewrite <- IH. f_equal. unfold at_index. symmetry. now apply nth_error_nth.
Qed.

Lemma all_indices (data : list row) : map (at_index data) (seq 0 (length data)) = data.
Proof.
  unfold at_index. assert (G : forall (pre l : list row), map (fun i => nth i (pre ++ l) []) (seq (length pre) (length l)) = l).
  { intros pre l. revert pre. induction l as [|r l IH]; intros pre; [reflexivity|]. cbn [length seq map]. f_equal; [rewrite app_nth2, Nat.sub_diag by lia; reflexivity|].
    specialize (IH (pre ++ [r])). rewrite app_length, <- app_assoc in IH. cbn [length app] in IH. now rewrite Nat.add_1_r in IH. }
  exact (G [] data).
Qed.

Theorem C90_groups best j data fuel : let vars := variables_from_init j in
  table_ok vars data -> data <> [] -> respects_contract best (with_total j (length data)) -> depth_limit j ->
  raw_min_samples_leaf j <= INR (length data) -> (2 * length data <= fuel)%nat ->
  exists leaves groups, fit best (create_leaf_node fuel vars) j fuel data [] = ([], Some leaves) /\
  length groups = length leaves /\ Permutation (concat groups) data /\ (forall g, In g groups -> g <> []) /\
  forall e, asks_all vars data e -> answers (circuit_of leaves) e (grouped vars data groups e).
Proof.
  intros vars Ht Hne Hb Hd Hm Hf. destruct (C61_jpt_valid best j data fuel Ht Hne Hb Hd Hm Hf) as (leaves & E & L & V).
  destruct (C42_jpt_partition_partial best (create_leaf_node fuel vars) j data) as (leaves' & E' & T); auto.
  { intros rows H1 H2 H3. destruct (create_valid fuel vars data rows Ht H1 H2) as (u & Eu & _); [lia|eauto]. }
  assert (leaves' = leaves) as -> by (rewrite E' in E by exact Hf; now injection E).
  exists leaves, (map (fun l => map (at_index data) (l_samples l)) leaves). split; [exact E|]. split; [apply map_length|].
  assert (N0 : INR (length data) <> 0) by (apply not_0_INR; destruct data; [contradiction|discriminate]).
  split; [|split].
  - rewrite <- (map_map l_samples (map (at_index data))), <- concat_map. rewrite <- (all_indices data) at 2. apply Permutation_map. apply (t_samples _ _ _ _ T).
  - intros g Hg. apply in_map_iff in Hg. destruct Hg as (l & <- & Hl). intros X. apply map_eq_nil in X. exact (t_some _ _ _ _ T l Hl X).
  - intros e Ha.
    assert (U : forall l, In l leaves -> all_leaves (fun d => evset_ok d (e (dvar d))) (l_unit l) /\
      semR (fun d => probR d (e (dvar d))) (l_unit l) = Rprod (map (share vars e (map (at_index data) (l_samples l))) (seq 0 (length vars)))).
    { intros l Hl. destruct (t_units _ _ _ _ T l Hl) as (rows & E1 & E2). destruct (fetched data _ _ E1) as [L1 I1]. rewrite <- (fetch_map _ _ _ E1).
      assert (Hs := t_some _ _ _ _ T l Hl). assert (HP := Permutation_length (t_samples _ _ _ _ T)). rewrite seq_length in HP.
      assert (HLl : (length (l_samples l) <= length data)%nat).
      { rewrite <- HP. destruct (in_split _ _ Hl) as (l1 & l2 & ->). rewrite map_app, concat_app, app_length. cbn [map concat]. rewrite app_length. lia. }
      apply (create_share fuel vars data rows e (l_unit l)); auto; [|lia]. intros ->. apply Hs. now destruct (l_samples l). }
    destruct V as [V1 V2 V3 V4 V5].
    assert (Q : semR (fun d => probR d (e (dvar d))) (tree_of_leaves leaves) = grouped vars data (map (fun l => map (at_index data) (l_samples l)) leaves) e).
    { unfold tree_of_leaves, grouped. cbn [semR]. rewrite !map_map. cbn [fst snd]. apply Rsum_ext. intros l Hl. rewrite (proj2 (U l Hl)), (t_weights _ _ _ _ T l Hl), map_length. f_equal.
      apply ModeFacts.wexp_nlog. apply Rmult_le_pos; [apply pos_INR|]. left. apply Rinv_0_lt_compat. pose proof (pos_INR (length data)). lra. }
    rewrite <- Q. apply answers_semR; auto using normalised_lw_ok.
    unfold event_ok, tree_of_leaves. cbn [all_leaves]. rewrite map_map. apply fold_and_Forall, Forall_forall. intros l Hl. apply (U l Hl).
Qed.
Print Assumptions C90_groups.

Lemma Rprod_single f n i : (i < n)%nat -> (forall k, (k < n)%nat -> k <> i -> f k = 1) -> Rprod (map f (seq 0 n)) = f i.
Proof.
  intros Hi H. assert (G : forall m s, (forall k, (s <= k < s + m)%nat -> k <> i -> f k = 1) -> Rprod (map f (seq s m)) = if (s <=? i)%nat && (i <? s + m)%nat then f i else 1).
  { induction m as [|m IH]; intros s Hk; cbn [seq map]; [rewrite Nat.add_0_r; destruct (Nat.leb_spec s i), (Nat.ltb_spec i s); cbn; auto; lia|].
    change (Rprod (f s :: map f (seq (S s) m))) with (f s * Rprod (map f (seq (S s) m))). rewrite IH by (intros; apply Hk; lia).
    destruct (Nat.eq_dec s i) as [->|Hne].
    - destruct (Nat.leb_spec (S i) i); [lia|]. destruct (Nat.leb_spec i i); [|lia]. destruct (Nat.ltb_spec i (i + S m)); [|lia]. cbn. ring.
    - rewrite (Hk s) by lia. rewrite Rmult_1_l. destruct (Nat.leb_spec (S s) i), (Nat.leb_spec s i), (Nat.ltb_spec i (S s + m)), (Nat.ltb_spec i (s + S m)); cbn; auto; lia. }
  rewrite G by (intros; apply H; lia). destruct (Nat.leb_spec 0 i), (Nat.ltb_spec i (0 + n)); cbn; auto; lia.
Qed.

Lemma filter_concat {X} (P : X -> bool) ls : filter P (concat ls) = concat (map (filter P) ls).
Proof. induction ls as [|l ls IH]; [reflexivity|]. cbn [concat map]. now rewrite filter_app, IH. Qed.

Lemma Permutation_filter {X} (P : X -> bool) a b : Permutation a b -> Permutation (filter P a) (filter P b).
Proof.
  induction 1 as [|x a b H IH|x y a|a b c H1 IH1 H2 IH2]; cbn [filter]; auto.
  - destruct (P x); auto.
  - destruct (P x), (P y); auto. apply perm_swap.
  - etransitivity; eauto.
Qed.

Lemma length_concat {X} (ls : list (list X)) : INR (length (concat ls)) = Rsum (map (fun l => INR (length l)) ls).
Proof. induction ls as [|l ls IH]; [reflexivity|]. cbn [concat map]. rewrite app_length, plus_INR, IH. reflexivity. Qed.

(** All data satisfy the assignments of the other variables: the answer for one variable is the portion of the data. *)
Theorem C90_frequency best j data fuel : let vars := variables_from_init j in
  table_ok vars data -> data <> [] -> respects_contract best (with_total j (length data)) -> depth_limit j ->
  raw_min_samples_leaf j <= INR (length data) -> (2 * length data <= fuel)%nat ->
  exists leaves, fit best (create_leaf_node fuel vars) j fuel data [] = ([], Some leaves) /\
  forall e i v k, asks_all vars data e -> nth_error vars i = Some (v, k) ->
  (forall i' v' k' r, i' <> i -> nth_error vars i' = Some (v', k') -> In r data -> entry_in k' i' (e v') r = true) ->
  answers (circuit_of leaves) e (portion (entry_in k i (e v)) data).
Proof.
  intros vars Ht Hne Hb Hd Hm Hf. destruct (C90_groups best j data fuel Ht Hne Hb Hd Hm Hf) as (leaves & groups & E & _ & HP & Hg & HA). exists leaves. split; [exact E|].
  intros e i v k Ha Hi Ho. fold vars in HA. specialize (HA e Ha).
  assert (N0 : INR (length data) <> 0) by (apply not_0_INR; destruct data; [contradiction|discriminate]).
  assert (Q : grouped vars data groups e = portion (entry_in k i (e v)) data); [|now rewrite Q in HA].
  unfold grouped. rewrite (Rsum_ext _ (fun g => / INR (length data) * INR (length (filter (entry_in k i (e v)) g)))).
  - rewrite Rsum_scal. unfold portion. rewrite <- (Permutation_length (Permutation_filter (entry_in k i (e v)) _ _ HP)), filter_concat, length_concat, map_map. unfold Rdiv. ring.
  - intros g Hgin. assert (Hne' := Hg g Hgin). rewrite (Rprod_single (share vars e g) (length vars) i).
    + unfold share. rewrite Hi. unfold portion. field. split; [exact N0|]. apply not_0_INR. destruct g; [contradiction|discriminate].
    + apply nth_error_Some. congruence.
    + intros i' Hlt Hi'. unfold share. destruct (nth_error vars i') as [[v' k']|] eqn:E'; [|reflexivity]. apply portion_all; [exact Hne'|]. intros r Hr. apply (Ho i' v' k' r Hi' E').
      eapply Permutation_in; [exact HP|]. apply in_concat. eauto.
Qed.
Print Assumptions C90_frequency.

(** Two rows over an integer and a continuous variable: the integer is 3 with probability one half. *)
Example C90_case : let j := init [(1%nat, KInteger); (2%nat, KContinuous 1 0 1)] None None 1 0 PInf PInf None in
  exists leaves, fit cut_first (create_leaf_node 4 (variables_from_init j)) j 4 [[3; 5]; [4; 6]] [] = ([], Some leaves) /\
  answers (circuit_of leaves) (fun v => if (v =? 1)%nat then EInt [isingleton 3] else EInt [ireals]) (1 / 2).
Proof.
  intros j. destruct C61_case as (T & B & D & M). fold j in T, B, D, M.
  destruct (C90_frequency cut_first j [[3; 5]; [4; 6]] 4%nat T) as (leaves & E & H); auto; [discriminate|]. exists leaves. split; [exact E|].
  assert (I3 : Int_part 3 = 3%Z) by (unfold Int_part; replace (up 3) with 4%Z; [reflexivity|apply tech_up; cbn; lra]). assert (I4 : Int_part 4 = 4%Z) by (unfold Int_part; replace (up 4) with 5%Z; [reflexivity|apply tech_up; cbn; lra]).
  set (e := fun v : nat => if (v =? 1)%nat then EInt [isingleton 3] else EInt [ireals]).
  assert (P : portion (entry_in KInteger 0 (e 1%nat)) [[3; 5]; [4; 6]] = 1 / 2).
  { unfold portion, entry_in, e. cbn [nth_error Nat.eqb meaning in_evset filter]. rewrite I3, I4. unfold in_interval. cbn [existsb]. unfold in_sint, above, below. cbn [lo hi lc rc isingleton].
    rb; try lra. cbn. lra. }
  rewrite <- P. apply (H e 0%nat 1%nat KInteger).
  - intros i v k c Hi Hc. destruct i as [|[|i]]; cbn in Hi; [| |destruct i; discriminate]; injection Hi as <- <-; cbn in Hc; injection Hc as <-; cbn [asks e Nat.eqb].
    + split; [split; [constructor; [apply SupportFacts.isingleton_ok|constructor]|cbn; split; [intros ? []|exact I]]|]. split; [discriminate|]. intros x [<-|[<-|[]]]; rewrite ?I3, ?I4; reflexivity.
    + split; [apply Interval.ireals_ok|]. split; [discriminate|]. reflexivity.
  - reflexivity.
  - intros i' v' k' r Hi' Hv Hr. destruct i' as [|[|i']]; [congruence| |destruct i'; discriminate Hv]. cbn in Hv. injection Hv as <- <-. destruct Hr as [<-|[<-|[]]]; reflexivity.
Qed.
