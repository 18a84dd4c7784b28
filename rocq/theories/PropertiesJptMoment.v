(** * Property C93: the moments of a fitted joint probability tree are those of the data *)
From Coq Require Import List Arith Bool Lia ZArith Reals Lra Permutation.
From Verif Require Import Num Graph GraphFacts Spec SpecFacts Circuit EvalFacts VarFacts Interval Dist DistFacts LeafCond Support SupportFacts ModeFacts TreeProb Layout LayoutFacts Star
  CircuitMoment MixFacts PropertiesProb PropertiesDist PropertiesMoment Nyga NygaFacts PropertiesNyga Jpt JptFacts PropertiesJpt PropertiesJptModel PropertiesJptFrequency PropertiesJptLikelihood.
Import ListNotations.
Local Set Bullet Behavior "Strict Subproofs".
Local Open Scope R_scope.

(** ** Specification *)
Definition average (l : list R) : R := Rsum l / INR (length l).
Definition numeric_kind (k : jkind) : Prop := match k with KSymbolic _ => False | _ => True end.

(** What the moment of order [n] about [z] of a column [c] is: the mean of the powers for integers.  For continuous variables, only the moment of order one is considered; it lies in
    the range of the column. *)
Definition moment_fits (k : jkind) (c : list R) (n : nat) (z m : R) : Prop :=
  match k with
  | KInteger => m = average (map (fun x => (IZR (Int_part x) - z) ^ n) c)
  | _ => forall a b, (forall x, In x c -> a <= x <= b) -> a - z <= m <= b - z
  end.

Definition moments_fit (vars : list (nat * jkind)) (data : list row) (order : nat -> option nat) (center : nat -> option R) (res : list (nat * num)) : Prop :=
  NoDup (map fst res) /\ (forall v, In v (map fst res) <-> In v (map fst vars)) /\
  forall i v k c n z, nth_error vars i = Some (v, k) -> column data i = Some c -> order v = Some n -> center v = Some z -> exists m, In (v, Fin m) res /\ moment_fits k c n z m.

(** All entries of the expectation are the means of the columns. *)
Definition C93_full : Prop := forall best j data fuel, let vars := variables_from_init j in
  table_ok vars data -> readable_all vars data -> vars <> [] -> data <> [] -> respects_contract best (with_total j (length data)) -> depth_limit j ->
  raw_min_samples_leaf j <= INR (length data) -> (2 * length data <= fuel)%nat ->
  (forall i v k, nth_error vars i = Some (v, k) -> numeric_kind k) ->
  exists leaves, fit best (create_leaf_node fuel vars) j fuel data [] = ([], Some leaves) /\
  forall st, exists res st', expectation (fun _ => false) (circuit_of leaves) st = Some (res, st') /\
  forall i v k c, nth_error vars i = Some (v, k) -> column data i = Some c -> In (v, Fin (average (map (meaning k) c))) res.

(** ** Proof *)

(** *** Moments of circuits, by their leaves *)
Definition leaf_value (order : nat -> option nat) (center : nat -> option R) (d : dist) : R :=
  match order (dvar d), center (dvar d) with
  | Some n, Some c => match moment1 d n c with Some m => m | None => 0 end
  | _, _ => 0
  end.

Definition leaf_given (order : nat -> option nat) (center : nat -> option R) (d : dist) : Prop :=
  exists n c, order (dvar d) = Some n /\ center (dvar d) = Some c /\ moment1 d n c = Some (leaf_value order center d).

Lemma moment_mix g t order center st : layered_circuit g t -> normalised t -> smooth dist_vars t -> products_nonempty t -> all_leaves (leaf_given order center) t ->
  exists vars st', circuit_moment order center g st = Some (map (fun v => (v, Fin (msum (leaf_value order center) (mix v t)))) vars, st') /\ NoDup vars /\ forall v, In v vars <-> mentions dist_vars t v.
Proof.
  intros Hl Hn Hs Hp HL. assert (Hl' := Hl). destruct Hl' as (Hwf & Hlt & r & Hr & Hg & Hu).
  destruct (circuit_variables_spec dist_vars g r t Hr Hu Hs) as (vars & Hv1 & Hv2 & Hv3).
  assert (Hnd : NoDup vars) by (clear - Hv2; induction Hv2 as [|v l H IH HF]; constructor; auto;
    intros Hin; rewrite Forall_forall in HF; specialize (HF v Hin); lia).
  assert (HL1 : all_leaves (fun d => In (dvar d) vars /\ leaf_given order center d) t).
  { eapply all_leaves_impl; [|apply (all_leaves_and _ _ _ (all_leaves_mentions dist_vars t) HL)]. cbn. intros d [H1 H2]. split; [apply Hv3, H1; now left|exact H2]. }
  assert (T := tev_moment vars order center (leaf_value order center) t Hnd (unfolds_sums_nonempty g r t Hu) Hp (normalised_lw_ok t Hn) HL1).
  destruct (run_pass_correct _ _ _ g r t _ st Hwf Hlt Hr Hg Hu T) as (st' & R1 & _).
  exists vars, st'. split; [|split; auto]. unfold circuit_moment. rewrite Hv1, R1. f_equal. f_equal. unfold vreal. clear. induction vars as [|v vars IH]; cbn; congruence.
Qed.

(** *** Columns *)
Lemma count_sum (f : Z -> R) data : forall l, NoDup l -> (forall x, In x data -> In x l) ->
  Rsum (map (fun x => f x * INR (count_occ Z.eq_dec data x)) l) = Rsum (map f data).
Proof.
  intros l Hn. induction data as [|y data IH]; intros Hl.
  - apply Rsum_zero. intros. cbn. ring.
  - rewrite (Rsum_ext _ (fun x => f x * INR (count_occ Z.eq_dec data x) + (if Z.eq_dec y x then f y else 0))).
    + rewrite Rsum_plus, IH by (intros; apply Hl; now right).
      assert (E : Rsum (map (fun x => if Z.eq_dec y x then f y else 0) l) = f y).
      { assert (Hy : In y l) by (apply Hl; now left). clear - Hn Hy. induction l as [|z l IH]; [destruct Hy|].
        inversion Hn; subst. simpl. destruct (Z.eq_dec y z) as [<-|Hne].
        - rewrite Rsum_zero; [lra|]. intros x Hx. destruct (Z.eq_dec y x); congruence.
        - destruct Hy as [->|Hy]; [congruence|]. rewrite IH by auto. lra. }
      rewrite E. cbn [map]. rewrite Rsum_cons. lra.
    + intros x _. cbn [count_occ]. destruct (Z.eq_dec y x) as [->|]; [rewrite S_INR; ring|ring].
Qed.

Lemma dfit_sum h data (f : Z -> R) : data <> [] -> (forall x y, In x data -> In y data -> h x = h y -> x = y) ->
  Rsum (map (fun kv => snd kv * f (fst kv)) (dfit h data)) = average (map (fun x => f (h x)) data).
Proof.
  intros Hne Hh. rewrite dfit_map by exact Hh. rewrite map_map. cbn [fst snd]. unfold average. rewrite map_length.
  assert (N : INR (length data) <> 0) by (apply not_0_INR; destruct data; [contradiction|discriminate]).
  rewrite <- (count_sum (fun x => f (h x)) data (Dist.np_unique data)).
  - unfold Rdiv. rewrite Rmult_comm, <- Rsum_scal. apply Rsum_ext. intros x _. rewrite count_spec. field. exact N.
  - apply sorted_NoDup, np_unique_sorted.
  - intros x. apply np_unique_In.
Qed.

Lemma unif_mean a b z : a < b -> unif_moment a b 1 z = (a + b) / 2 - z.
Proof. intros H. unfold unif_moment, unif_pdf. rewrite exp_Ropp, exp_ln by lra. cbn [Nat.add INR pow]. field. lra. Qed.

Lemma convex_bounds {X} (w f : X -> R) l a b : (forall x, In x l -> 0 <= w x /\ a <= f x <= b) -> Rsum (map w l) = 1 -> a <= Rsum (map (fun x => w x * f x) l) <= b.
Proof.
  intros H E. assert (G : a * Rsum (map w l) <= Rsum (map (fun x => w x * f x) l) <= b * Rsum (map w l)).
  { clear E. induction l as [|x l IH]; [cbn; lra|]. cbn [map]. rewrite !Rsum_cons. destruct (H x (or_introl eq_refl)) as (H1 & H2 & H3). destruct IH as [I1 I2]; [intros; apply H; now right|]. nra. }
  rewrite E in G. lra.
Qed.

Lemma column_moment fuel v k c u order center n z : c <> [] -> column_ok k c -> readable k c -> numeric_kind k -> (2 * length c <= fuel)%nat -> fit_column fuel v k c = Some u ->
  order v = Some n -> center v = Some z -> (match k with KContinuous _ _ _ => n = 1%nat | _ => True end) ->
  all_leaves (fun d => dvar d = v /\ leaf_given order center d) u /\ products_nonempty u /\ moment_fits k c n z (msum (leaf_value order center) (mix v u)).
Proof.
  intros Hne Hok Hr Hk Hf E Eo Ec Hn. destruct k as [md imp q|h|]; cbn [fit_column column_ok readable numeric_kind moment_fits] in *; [|contradiction|].
  - subst n. destruct Hok as [Hq Himp]. destruct (one_value c Hne) as [H2|(y & Ey & Hy)].
    + destruct (C40_nyga_partial log_likelihood_without_split log_likelihood_of_split v q imp c Hq Himp H2) as (leaves & Q & Ft). unfold Nyga.fit in E. rewrite (Ft fuel Hf) in E.
      unfold mixture_of in E. set (l := map _ leaves) in E.
      assert (Hl : l <> []). { intros X. apply map_eq_nil in X. pose proof (q_total _ _ _ _ Q) as T. rewrite X in T. cbn in T. lra. }
      rewrite (nyga_root_star l Hl) in E. injection E as <-.
      assert (V : forall wi, In wi leaves -> exists a b cl, snd wi = mkSint (Fin a) (Fin b) true cl /\ a < b /\ leaf_value order center (DUnif v (snd wi)) = (a + b) / 2 - z /\ leaf_given order center (DUnif v (snd wi))).
      { intros wi Hwi. destruct (q_proper _ _ _ _ Q wi Hwi) as (a & b & cl & Ei & Hab). exists a, b, cl. split; [exact Ei|]. split; [exact Hab|]. unfold leaf_given, leaf_value. cbn [dvar]. rewrite Eo, Ec, Ei. cbn [moment1 lo hi]. split; [now apply unif_mean|]. eauto. }
      split; [|split].
      * apply star_leaves. unfold l. apply Forall_map, Forall_forall. intros wi Hwi. cbn [snd dvar]. split; [reflexivity|]. destruct (V wi Hwi) as (a & b & cl & _ & _ & _ & X). exact X.
      * unfold star. cbn [products_nonempty]. rewrite map_map. apply fold_and_Forall, Forall_map, Forall_forall. intros; exact I.
      * intros a b Hab. unfold star. rewrite msum_sum. unfold l. rewrite !map_map. cbn [fst snd mix dvar]. rewrite Nat.eqb_refl.
        rewrite (Rsum_ext _ (fun wi => fst wi * leaf_value order center (DUnif v (snd wi)))).
        -- apply convex_bounds; [|exact (q_total _ _ _ _ Q)]. intros wi Hwi. split; [left; apply (q_weights _ _ _ _ Q wi Hwi)|]. destruct (V wi Hwi) as (a0 & b0 & cl & Ei & Hab0 & -> & _).
           assert (Z : forall y, a0 < y < b0 -> a <= y <= b).
           { intros y Hy. assert (C : in_interval (map snd leaves) y = true).
             { apply existsb_exists. exists (snd wi). split; [now apply in_map|]. rewrite Ei. unfold in_sint, above, below. cbn [lo hi lc rc]. destruct (Rleb_spec a0 y); [|lra]. destruct cl; [destruct (Rleb_spec y b0); [reflexivity|lra]|destruct (Rltb_spec y b0); [reflexivity|lra]]. }
             apply (q_cover _ _ _ _ Q) in C. destruct C as (x1 & x2 & I1 & I2 & Hx). pose proof (Hab x1 I1). pose proof (Hab x2 I2). lra. }
           pose proof (Z ((a0 + b0) / 2) ltac:(lra)). lra.
        -- intros wi Hwi. unfold msum. cbn [map]. rewrite Rsum_cons. cbn [map fst snd]. rewrite (proj2 (ModeFacts.wexp_nlog (fst wi) (Rlt_le _ _ (proj1 (q_weights _ _ _ _ Q wi Hwi))))). unfold Rsum. cbn. ring.
    + unfold Nyga.fit, fit_with in E. rewrite Ey in E. injection E as <-. assert (LV : leaf_value order center (DDirac v y PInf) = y - z) by (unfold leaf_value; cbn [dvar]; rewrite Eo, Ec; reflexivity).
      split; [|split; [exact I|]].
      * cbn [all_leaves dvar]. split; [reflexivity|]. exists 1%nat, z. cbn [dvar]. rewrite LV. auto.
      * intros a b Hab. cbn [mix dvar]. rewrite Nat.eqb_refl. unfold msum. cbn [map fst snd]. rewrite LV. unfold Rsum. cbn. pose proof (Hab y Hy). lra.
  - injection E as <-. assert (LV : leaf_value order center (DInt v (dfit pyhash (map Int_part c))) = average (map (fun x => (IZR (Int_part x) - z) ^ n) c)).
    { unfold leaf_value. cbn [dvar]. rewrite Eo, Ec. cbn [moment1]. unfold int_moment. rewrite (dfit_sum pyhash (map Int_part c) (fun k => (IZR k - z) ^ n)).
      - rewrite map_map. f_equal. apply map_ext_in. intros x Hx. now rewrite Hr.
      - destruct c; [contradiction|discriminate].
      - intros x y Hx Hy. apply in_map_iff in Hx, Hy. destruct Hx as (x' & <- & Hx), Hy as (y' & <- & Hy). rewrite !Hr by auto. auto. }
    split; [|split; [exact I|]].
    + cbn [all_leaves dvar]. split; [reflexivity|]. exists n, z. cbn [dvar]. rewrite Eo, Ec. repeat split. cbn [moment1]. unfold leaf_value. cbn [dvar]. rewrite Eo, Ec. reflexivity.
    + cbn [mix dvar]. rewrite Nat.eqb_refl. unfold msum. cbn [map fst snd]. rewrite LV. unfold Rsum at 1. cbn. ring.
Qed.

(** *** One leaf *)
Lemma mix_other v u : all_leaves (fun d => dvar d <> v) u -> mix v u = [].
Proof. intros H. destruct (mix v u) as [|p l] eqn:Em; [reflexivity|]. destruct (mix_leaf v _ u p H) as (H1 & H2 & _); [rewrite Em; now left|]. contradiction. Qed.

Lemma Rsum_one {X} (f : X -> R) l i a : nth_error l i = Some a -> (forall j b, nth_error l j = Some b -> j <> i -> f b = 0) -> Rsum (map f l) = f a.
Proof.
  revert l. induction i as [|i IH]; intros [|x l] Ha H; try discriminate; cbn [map]; rewrite Rsum_cons.
  - injection Ha as ->. rewrite Rsum_zero; [ring|]. intros b Hb. apply In_nth_error in Hb. destruct Hb as (j & Hj). apply (H (S j) b Hj). discriminate.
  - rewrite (IH l Ha); [|intros j b Hj Hne; apply (H (S j) b Hj); congruence]. rewrite (H 0%nat x eq_refl) by discriminate. ring.
Qed.

Lemma create_moment fuel vars data rows u order center : table_ok vars data -> readable_all vars data -> vars <> [] -> rows <> [] -> incl rows data -> (2 * length rows <= fuel)%nat ->
  (forall i v k, nth_error vars i = Some (v, k) -> numeric_kind k /\ exists n z, order v = Some n /\ center v = Some z /\ match k with KContinuous _ _ _ => n = 1%nat | _ => True end) ->
  create_leaf_node fuel vars rows = Some u ->
  all_leaves (leaf_given order center) u /\ products_nonempty u /\
  forall i v k n z, nth_error vars i = Some (v, k) -> order v = Some n -> center v = Some z -> exists c, column rows i = Some c /\ moment_fits k c n z (msum (leaf_value order center) (mix v u)).
Proof.
  intros (HN & HL & HC) Hread Hvs Hne Hin Hf Hoc E. unfold create_leaf_node in E.
  assert (HLr : Forall (fun r : row => length r = length vars) rows) by (rewrite Forall_forall in *; auto).
  destruct (mapM _ _) as [us|] eqn:Em; [|discriminate]. injection E as <-. destruct (mapM_indexed _ vars 0%nat us Em) as (Lu & Nu). cbn [Nat.add fst snd] in Nu.
  assert (K : forall i v k, nth_error vars i = Some (v, k) -> exists c u, column rows i = Some c /\ nth_error us i = Some u /\ all_leaves (fun d => dvar d = v /\ leaf_given order center d) u /\ products_nonempty u /\
    forall n z, order v = Some n -> center v = Some z -> moment_fits k c n z (msum (leaf_value order center) (mix v u))).
  { intros i v k Hi. destruct (Nu i (v, k) Hi) as (u & U1 & U2). cbn [fst snd] in U2. destruct (column rows i) as [c|] eqn:Ec; [|discriminate]. exists c, u. split; [reflexivity|]. split; [exact U1|].
    assert (Hlt : (i < length vars)%nat) by (apply nth_error_Some; congruence).
    destruct (column_total data i _ HL Hlt) as (cd & Ecd). destruct (column_In _ _ _ Ec) as [Lc Ic]. destruct (column_In _ _ _ Ecd) as [_ Icd].
    assert (Hic : incl c cd) by (intros x Hx; apply Ic in Hx; destruct Hx as (r & Hr & E1); apply Icd; eauto).
    destruct (Hoc i v k Hi) as (Hk & n & z & On & Oz & Hkn).
    destruct (column_moment fuel v k c u order center n z) as (M1 & M2 & M3); auto.
    - intros ->. destruct rows; [contradiction|discriminate].
    - eapply column_ok_incl; [exact Hic|]. eapply HC; eauto.
    - specialize (Hread i v k cd Hi Ecd). destruct k; cbn [readable] in *; auto.
    - rewrite Lc. exact Hf.
    - split; [exact M1|]. split; [exact M2|]. intros n' z' On' Oz'. rewrite On in On'. rewrite Oz in Oz'. injection On' as <-. injection Oz' as <-. exact M3. }
  assert (K' : forall i u, nth_error us i = Some u -> exists v k, nth_error vars i = Some (v, k)).
  { intros i u Hu. destruct (nth_error vars i) as [[v k]|] eqn:Ei; [eauto|]. apply nth_error_None in Ei. assert (nth_error us i = None) by (apply nth_error_None; lia). congruence. }
  split; [|split].
  - cbn [all_leaves]. apply fold_and_Forall, Forall_nth_error. intros i u Hu. destruct (K' i u Hu) as (v & k & Hi). destruct (K i v k Hi) as (c & u' & _ & U & A & _). assert (u' = u) as -> by congruence.
    eapply all_leaves_impl; [|exact A]. now intros d [_ ?].
  - cbn [products_nonempty]. split; [intros ->; destruct vars; [contradiction|discriminate]|]. apply fold_and_Forall, Forall_nth_error. intros i u Hu. destruct (K' i u Hu) as (v & k & Hi). destruct (K i v k Hi) as (c & u' & _ & U & _ & A & _). congruence.
  - intros i v k n z Hi On Oz. destruct (K i v k Hi) as (c & u & C1 & C2 & C3 & _ & C4). exists c. split; [exact C1|]. rewrite msum_prod.
    rewrite (Rsum_one (fun t => msum (leaf_value order center) (mix v t)) us i u C2); [now apply C4|].
    intros j w Hj Hji. destruct (K' j w Hj) as (v' & k' & Hj'). destruct (K j v' k' Hj') as (c' & w' & _ & W1 & W2 & _). assert (w' = w) as -> by congruence. rewrite mix_other; [reflexivity|].
    eapply all_leaves_impl; [|exact W2]. cbn. intros d [-> _] ->. apply Hji.
    apply (proj1 (NoDup_nth_error (map fst vars)) HN); [rewrite map_length; apply nth_error_Some; congruence|]. rewrite !nth_error_map, Hj', Hi. reflexivity.
Qed.

(** *** The tree *)
Definition entry (i : nat) (r : row) : R := nth i r 0.

Lemma column_entries rows i c : column rows i = Some c -> c = map (entry i) rows.
Proof. intros H. unfold column in H. apply mapM_Forall2 in H. induction H as [|r x rows c H HF IH]; [reflexivity|]. cbn [map]. rewrite <- IH. f_equal. unfold entry. symmetry. now apply nth_error_nth. Qed.

Lemma Rsum_concat ls : Rsum (concat ls) = Rsum (map Rsum ls).
Proof. induction ls as [|l ls IH]; [reflexivity|]. cbn [concat map]. now rewrite Rsum_app, Rsum_cons, IH. Qed.

Lemma Rsum_perm a b : Permutation a b -> Rsum a = Rsum b.
Proof. induction 1; rewrite ?Rsum_cons; try lra; reflexivity. Qed.

(** The moments about any points: the averages of the powers over the data for integers.  Missing: moments of continuous variables, of which only the range of the mean is
    given ([C93_refuted] shows that the mean is not that of the data), and tables with symbols, for which moments raise ([C93_symbols_raise]). *)
Theorem C93_moment_partial best j data fuel order center : let vars := variables_from_init j in
  table_ok vars data -> readable_all vars data -> vars <> [] -> data <> [] -> respects_contract best (with_total j (length data)) -> depth_limit j ->
  raw_min_samples_leaf j <= INR (length data) -> (2 * length data <= fuel)%nat ->
  (forall i v k, nth_error vars i = Some (v, k) -> numeric_kind k /\ exists n z, order v = Some n /\ center v = Some z /\ match k with KContinuous _ _ _ => n = 1%nat | _ => True end) ->
  exists leaves, fit best (create_leaf_node fuel vars) j fuel data [] = ([], Some leaves) /\
  forall st, exists res st', circuit_moment order center (circuit_of leaves) st = Some (res, st') /\ moments_fit vars data order center res.
Proof.
  intros vars Ht Hread Hvs Hne Hb Hd Hm Hf Hoc. destruct (C61_jpt_valid best j data fuel Ht Hne Hb Hd Hm Hf) as (leaves & E & L & V).
  destruct (C42_jpt_partition_partial best (create_leaf_node fuel vars) j data) as (leaves' & E' & T); auto.
  { intros rows H1 H2 H3. destruct (create_valid fuel vars data rows Ht H1 H2) as (u & Eu & _); [lia|eauto]. }
  assert (leaves' = leaves) as -> by (rewrite E' in E by exact Hf; now injection E). exists leaves. split; [exact E|].
  assert (N0 : 0 < INR (length data)) by (apply lt_0_INR; destruct data; [contradiction|cbn; lia]).
  set (rows_of := fun l => map (at_index data) (l_samples l)).
  assert (HPr : Permutation (concat (map rows_of leaves)) data).
  { unfold rows_of. rewrite <- (map_map l_samples (map (at_index data))), <- concat_map. rewrite <- (all_indices data) at 2. apply Permutation_map. apply (t_samples _ _ _ _ T). }
  assert (Hrn : forall l, In l leaves -> rows_of l <> []) by (intros l Hl X; apply map_eq_nil in X; exact (t_some _ _ _ _ T l Hl X)).
  assert (U : forall l, In l leaves -> all_leaves (leaf_given order center) (l_unit l) /\ products_nonempty (l_unit l) /\
    forall i v k n z, nth_error vars i = Some (v, k) -> order v = Some n -> center v = Some z -> exists c, column (rows_of l) i = Some c /\ moment_fits k c n z (msum (leaf_value order center) (mix v (l_unit l)))).
  { intros l Hl. destruct (t_units _ _ _ _ T l Hl) as (rows & E1 & E2). destruct (fetched data _ _ E1) as [L1 I1]. unfold rows_of. rewrite <- (fetch_map _ _ _ E1).
    assert (HP := Permutation_length (t_samples _ _ _ _ T)). rewrite seq_length in HP.
    assert (HLl : (length (l_samples l) <= length data)%nat).
    { rewrite <- HP. destruct (in_split _ _ Hl) as (l1 & l2 & ->). rewrite map_app, concat_app, app_length. cbn [map concat]. rewrite app_length. lia. }
    apply (create_moment fuel vars data rows (l_unit l)); auto; [|lia]. intros ->. apply (t_some _ _ _ _ T l Hl). now destruct (l_samples l). }
  assert (W : forall l, In l leaves -> 0 < INR (length (rows_of l)) /\ wexp (l_weight l) = INR (length (rows_of l)) / INR (length data)).
  { intros l Hl. assert (P : 0 < INR (length (rows_of l))) by (apply lt_0_INR; pose proof (Hrn l Hl); destruct (rows_of l); [contradiction|cbn; lia]).
    split; [exact P|]. rewrite (t_weights _ _ _ _ T l Hl). unfold rows_of in *. rewrite map_length in *. apply ModeFacts.wexp_nlog. left. now apply Rdiv_lt_0_compat. }
  destruct V as [V1 V2 V3 V4 V5]. intros st.
  destruct (moment_mix (circuit_of leaves) (tree_of_leaves leaves) order center st L V3 V1) as (vs & st' & R1 & R2 & R3).
  { unfold tree_of_leaves. cbn [products_nonempty]. rewrite map_map. apply fold_and_Forall, Forall_forall. intros u Hu. first [apply (U u Hu)|apply in_map_iff in Hu; destruct Hu as (l & <- & Hl); apply (U l Hl)]. }
  { unfold tree_of_leaves. cbn [all_leaves]. rewrite map_map. apply fold_and_Forall, Forall_forall. intros u Hu. first [apply (U u Hu)|apply in_map_iff in Hu; destruct Hu as (l & <- & Hl); apply (U l Hl)]. }
  eexists _, st'. split; [exact R1|]. unfold moments_fit. rewrite map_map. cbn [fst]. rewrite map_id. split; [exact R2|]. split; [intros v; now rewrite R3, V5|].
  intros i v k c n z Hi Hc On Oz. exists (msum (leaf_value order center) (mix v (tree_of_leaves leaves))). split.
  { apply in_map_iff. exists v. split; [reflexivity|]. apply R3, V5. apply in_map_iff. exists (v, k). split; [reflexivity|]. eapply nth_error_In; eauto. }
  unfold tree_of_leaves. rewrite msum_sum, map_map. cbn [fst snd].
  assert (Tot : Rsum (map (fun l => wexp (l_weight l)) leaves) = 1).
  { rewrite (Rsum_ext _ (fun l => / INR (length data) * INR (length (rows_of l)))) by (intros l Hl; rewrite (proj2 (W l Hl)); unfold Rdiv; ring). rewrite Rsum_scal.
    replace (Rsum (map (fun l => INR (length (rows_of l))) leaves)) with (INR (length data)); [field; lra|]. rewrite <- (Permutation_length HPr). clear. induction leaves as [|l ls IH]; [reflexivity|]. cbn [map concat]. rewrite app_length, plus_INR, Rsum_cons, IH. reflexivity. }
  apply column_entries in Hc. destruct k as [md imp q|h|].
  - intros a b Hab. apply (convex_bounds (fun l => wexp (l_weight l)) (fun l => msum (leaf_value order center) (mix v (l_unit l)))); [|exact Tot].
    intros l Hl. split; [rewrite (proj2 (W l Hl)); left; apply Rdiv_lt_0_compat; [apply (W l Hl)|exact N0]|].
    destruct (U l Hl) as (_ & _ & Ul). destruct (Ul i v _ n z Hi On Oz) as (c' & C1 & C2). apply C2. intros x Hx. apply Hab. rewrite Hc. apply column_entries in C1. rewrite C1 in Hx.
    apply in_map_iff in Hx. destruct Hx as (r & <- & Hr). apply in_map. apply (Permutation_in _ HPr), in_concat. exists (rows_of l). split; [now apply in_map|exact Hr].
  - destruct (Hoc i v _ Hi) as [[] _].
  - cbn [moment_fits]. set (f := fun x => (IZR (Int_part x) - z) ^ n).
    rewrite (Rsum_ext _ (fun l => / INR (length data) * Rsum (map (fun r => f (entry i r)) (rows_of l)))).
    + rewrite Rsum_scal, <- (map_map rows_of (fun g => Rsum (map (fun r => f (entry i r)) g))), <- (map_map (map (fun r => f (entry i r))) Rsum), <- Rsum_concat, <- concat_map.
      rewrite (Rsum_perm _ _ (Permutation_map (fun r => f (entry i r)) HPr)). unfold average. rewrite Hc, !map_length, !map_map. unfold Rdiv. ring.
    + intros l Hl. destruct (U l Hl) as (_ & _ & Ul). destruct (Ul i v _ n z Hi On Oz) as (c' & C1 & C2). cbn [moment_fits] in C2. rewrite C2. destruct (W l Hl) as [W1 ->]. apply column_entries in C1.
      rewrite C1. unfold average. rewrite !map_length, map_map. fold f. change (fun x : row => (IZR (Int_part (entry i x)) - z) ^ n) with (fun x => f (entry i x)). field. lra.
Qed.
Print Assumptions C93_moment_partial.

(** *** Expectation and variance *)
Lemma expectation_moment g t : layered_circuit g t -> smooth dist_vars t -> exists vs, (forall v, In v vs <-> mentions dist_vars t v) /\ circuit_variables dist_vars g = Some vs /\
  forall st, expectation (fun _ => false) g st = circuit_moment (vmap_const vs 1%nat) (vmap_const vs 0) g st.
Proof.
  intros (Hwf & Hlt & r & Hr & Hg & Hu) Hs. destruct (circuit_variables_spec dist_vars g r t Hr Hu Hs) as (vs & Hv1 & Hv2 & Hv3). exists vs. split; [exact Hv3|]. split; [exact Hv1|]. intros st.
  unfold expectation. rewrite Hv1. unfold numeric_variables. cbn [negb]. now replace (filter (fun _ => true) vs) with vs by (clear; induction vs; simpl; congruence).
Qed.

Lemma vmap_in {X} vs (x : X) v : In v vs -> vmap_const vs x v = Some x.
Proof. intros H. unfold vmap_const. replace (existsb (Nat.eqb v) vs) with true; [reflexivity|]. symmetry. apply existsb_exists. exists v. split; [exact H|apply Nat.eqb_refl]. Qed.

(** The expectation of an integer variable is the mean of its column, that of a continuous variable lies in the range of its column.  Missing: as in [C93_moment_partial]. *)
Theorem C93_expectation_partial best j data fuel : let vars := variables_from_init j in
  table_ok vars data -> readable_all vars data -> vars <> [] -> data <> [] -> respects_contract best (with_total j (length data)) -> depth_limit j ->
  raw_min_samples_leaf j <= INR (length data) -> (2 * length data <= fuel)%nat ->
  (forall i v k, nth_error vars i = Some (v, k) -> numeric_kind k) ->
  exists leaves, fit best (create_leaf_node fuel vars) j fuel data [] = ([], Some leaves) /\
  forall st, exists res st', expectation (fun _ => false) (circuit_of leaves) st = Some (res, st') /\ NoDup (map fst res) /\ (forall v, In v (map fst res) <-> In v (map fst vars)) /\
  forall i v k c, nth_error vars i = Some (v, k) -> column data i = Some c -> exists m, In (v, Fin m) res /\
    match k with KInteger => m = average (map (meaning k) c) | _ => forall a b, (forall x, In x c -> a <= x <= b) -> a <= m <= b end.
Proof.
  intros vars Ht Hread Hvs Hne Hb Hd Hm Hf Hk. destruct (C61_jpt_valid best j data fuel Ht Hne Hb Hd Hm Hf) as (leaves & E & L & V).
  destruct (expectation_moment _ _ L (o_smooth _ _ V)) as (vs & Hv & _ & Ex). exists leaves. split; [exact E|]. intros st.
  assert (Hin : forall i v k, nth_error vars i = Some (v, k) -> In v vs).
  { intros i v k Hi. apply Hv, (o_variables _ _ V). apply in_map_iff. exists (v, k). split; [reflexivity|]. eapply nth_error_In; eauto. }
  destruct (C93_moment_partial best j data fuel (vmap_const vs 1%nat) (vmap_const vs 0)) as (leaves' & E' & M); auto.
  { intros i v k Hi. split; [eauto|]. exists 1%nat, 0. rewrite !vmap_in by eauto. repeat split. now destruct k. }
  fold vars in E, E', M. rewrite E in E'. injection E' as <-. destruct (M st) as (res & st' & R1 & R2 & R3 & R4). exists res, st'. rewrite Ex. split; [exact R1|]. split; [exact R2|]. split; [exact R3|].
  intros i v k c Hi Hc. destruct (R4 i v k c 1%nat 0 Hi Hc) as (m & M1 & M2); [eapply vmap_in; eauto|eapply vmap_in; eauto|]. exists m. split; [exact M1|].
  destruct k; cbn [moment_fits] in M2.
  - intros a b Hab. specialize (M2 a b Hab). lra.
  - intros a b Hab. specialize (M2 a b Hab). lra.
  - rewrite M2. f_equal. apply map_ext. intros x. cbn [meaning]. ring.
Qed.
Print Assumptions C93_expectation_partial.

(** The variance of every variable, for tables of integers.  Missing: continuous variables. *)
Theorem C93_variance_partial best j data fuel : let vars := variables_from_init j in
  table_ok vars data -> readable_all vars data -> vars <> [] -> data <> [] -> respects_contract best (with_total j (length data)) -> depth_limit j ->
  raw_min_samples_leaf j <= INR (length data) -> (2 * length data <= fuel)%nat ->
  (forall i v k, nth_error vars i = Some (v, k) -> k = KInteger) ->
  exists leaves, fit best (create_leaf_node fuel vars) j fuel data [] = ([], Some leaves) /\
  forall st, exists res st', variance (fun _ => false) (circuit_of leaves) st = Some (res, st') /\ NoDup (map fst res) /\ (forall v, In v (map fst res) <-> In v (map fst vars)) /\
  forall i v k c, nth_error vars i = Some (v, k) -> column data i = Some c -> let xs := map (meaning k) c in In (v, Fin (average (map (fun x => (x - average xs) ^ 2) xs))) res.
Proof.
  intros vars Ht Hread Hvs Hne Hb Hd Hm Hf Hk. destruct (C61_jpt_valid best j data fuel Ht Hne Hb Hd Hm Hf) as (leaves & E & L & V).
  destruct (expectation_moment _ _ L (o_smooth _ _ V)) as (vs & Hv & Hcv & Ex). exists leaves. split; [exact E|]. intros st.
  assert (Hin : forall i v k, nth_error vars i = Some (v, k) -> In v vs).
  { intros i v k Hi. apply Hv, (o_variables _ _ V). apply in_map_iff. exists (v, k). split; [reflexivity|]. eapply nth_error_In; eauto. }
  destruct (C93_expectation_partial best j data fuel) as (leaves' & E' & M); auto. { fold vars. intros i v k Hi. now rewrite (Hk i v k Hi). }
  fold vars in E, E', M. rewrite E in E'. injection E' as <-. destruct (M st) as (ex & st1 & R1 & R2 & R3 & R4).
  unfold variance. rewrite Hcv, R1. unfold numeric_variables. cbn [negb]. replace (filter (fun _ => true) vs) with vs by (clear; induction vs; simpl; congruence).
  set (center := fun v => match assoc v ex with Some (Fin c) => Some c | _ => None end).
  assert (Hc : forall i v k c, nth_error vars i = Some (v, k) -> column data i = Some c -> center v = Some (average (map (meaning k) c))).
  { intros i v k c Hi Hc. destruct (R4 i v k c Hi Hc) as (m & M1 & M2). rewrite (Hk i v k Hi) in *. unfold center. rewrite (assoc_In v (Fin m) ex R2 M1). now rewrite M2. }
  destruct (C93_moment_partial best j data fuel (vmap_const vs 2%nat) center) as (leaves' & E' & M'); auto.
  { fold vars. intros i v k Hi. pose proof (Hk i v k Hi). subst k. split; [exact I|]. destruct (column_total data i (length vars)) as (c & Ec); [apply Ht|apply nth_error_Some; congruence|].
    exists 2%nat, (average (map (meaning KInteger) c)). split; [eapply vmap_in; eauto|]. split; [exact (Hc i v _ c Hi Ec)|exact I]. }
  fold vars in E, E', M'. rewrite E in E'. injection E' as <-. destruct (M' st1) as (res & st' & S1 & S2 & S3 & S4). exists res, st'. split; [exact S1|]. split; [exact S2|]. split; [exact S3|].
  intros i v k c Hi Ec. set (xs := map (meaning k) c). destruct (S4 i v k c 2%nat (average xs) Hi Ec) as (m & M1 & M2); [eapply vmap_in; eauto|now apply (Hc i)|]. pose proof (Hk i v k Hi) as Ek. subst k. cbn [moment_fits] in M2. rewrite M2 in M1. unfold xs at 2. rewrite map_map. exact M1.
Qed.
Print Assumptions C93_variance_partial.

(** *** Symbols *)
Lemma unfolds_leaves {D} (P : D -> Prop) (g : graph D) u t : unfolds g u t -> (forall w d, node_kind g w = Some (ULeaf d) -> P d) -> all_leaves P t.
Proof.
  intros Hu HP. revert u t Hu. refine (unfolds_ind' g _ _ _ _); [intros u d Hk|intros u ts Hk Hne HF|intros u ts Hk HF]; cbn [all_leaves].
  - eauto.
  - apply fold_and_Forall. clear - HF. induction HF as [|e wt es ts (_ & _ & H) HF IH]; constructor; auto.
  - apply fold_and_Forall. clear - HF. induction HF as [|e wt es ts (_ & H) HF IH]; constructor; auto.
Qed.

(** With a symbolic variable all moments raise, also those of the other variables, and so does the expectation. *)
Theorem C93_symbols_raise best j data fuel i v h : let vars := variables_from_init j in
  table_ok vars data -> data <> [] -> respects_contract best (with_total j (length data)) -> depth_limit j ->
  raw_min_samples_leaf j <= INR (length data) -> (2 * length data <= fuel)%nat ->
  nth_error vars i = Some (v, KSymbolic h) ->
  exists leaves, fit best (create_leaf_node fuel vars) j fuel data [] = ([], Some leaves) /\
  (forall order center st, circuit_moment order center (circuit_of leaves) st = None) /\ forall symbolic st, expectation symbolic (circuit_of leaves) st = None.
Proof.
  intros vars Ht Hne Hb Hd Hm Hf Hi. destruct (C61_jpt_valid best j data fuel Ht Hne Hb Hd Hm Hf) as (leaves & E & L & V).
  destruct (C42_jpt_partition_partial best (create_leaf_node fuel vars) j data) as (leaves' & E' & T); auto.
  { intros rows H1 H2 H3. destruct (create_valid fuel vars data rows Ht H1 H2) as (u & Eu & _); [lia|eauto]. }
  assert (leaves' = leaves) as -> by (rewrite E' in E by exact Hf; now injection E). exists leaves. split; [exact E|].
  assert (M : forall order center st, circuit_moment order center (circuit_of leaves) st = None).
  { intros order center st. destruct (circuit_moment order center (circuit_of leaves) st) as [r|] eqn:Er; [|reflexivity]. exfalso.
    assert (A : all_leaves numeric (tree_of_leaves leaves)).
    { assert (L' := L). destruct L' as (_ & _ & r0 & _ & _ & Hu). apply (unfolds_leaves numeric (circuit_of leaves) r0); [exact Hu|]. intros w d Hk. destruct d as [| | | |v' p|] eqn:Ed; try exact I. exfalso.
      rewrite (C26_symbolic_raises (circuit_of leaves) (tree_of_leaves leaves) w (DSym v' p) order center st L) in Er; try discriminate.
      - apply layout_tree.
      - apply V.
      - eapply node_kind_ids; eauto.
      - exact Hk.
      - intros []. }
    assert (Hl : exists l, In l leaves). { destruct leaves as [|l ls]; [|eexists; now left]. pose proof (Permutation_length (t_samples _ _ _ _ T)) as X. rewrite seq_length in X. destruct data; [contradiction|discriminate X]. }
    destruct Hl as (l & Hl). unfold tree_of_leaves in A. cbn [all_leaves] in A. rewrite map_map in A. apply fold_and_Forall in A. rewrite Forall_forall in A. specialize (A l Hl). cbn [snd] in A.
    destruct (t_units _ _ _ _ T l Hl) as (rows & _ & E2). unfold create_leaf_node in E2. destruct (mapM _ _) as [us|] eqn:Em; [|discriminate]. injection E2 as E2. rewrite <- E2 in A.
    destruct (mapM_indexed _ vars 0%nat us Em) as (Lu & Nu). destruct (Nu i _ Hi) as (u & U1 & U2). cbn [Nat.add fst snd] in U2. destruct (column rows i) as [c|]; [|discriminate]. injection U2 as <-.
    cbn [all_leaves] in A. apply fold_and_Forall in A. rewrite Forall_forall in A. apply nth_error_In in U1. exact (A _ U1). }
  split; [exact M|]. intros symbolic st. unfold expectation. destruct (circuit_variables dist_vars (circuit_of leaves)); [apply M|reflexivity].
Qed.
Print Assumptions C93_symbols_raise.

(** *** Continuous variables *)
Definition lone : jpt := init [(1%nat, KContinuous 1 0 2)] None None 3 0 PInf PInf None.
Definition never : list nat -> nat -> nat -> num * nat * list nat := fun ix _ _ => (NInf, 0%nat, ix).

Lemma lone_column v fuel : (6 <= fuel)%nat -> exists w cl, fit_column fuel v (KContinuous 1 0 2) [0; 1; 1] = Some (star [(nlog (Fin w), DUnif v (mkSint (Fin 0) (Fin 1) true cl))]) /\ w = 1.
Proof.
  intros Hf. cbn [fit_column].
  destruct (C40_nyga_partial log_likelihood_without_split log_likelihood_of_split v 2 0 [0; 1; 1]) as (leaves & Q & Ft); [lia|lra|exists 0, 1; cbn; intuition lra|].
  unfold Nyga.fit. rewrite (Ft fuel Hf). unfold mixture_of.
  assert (L1 : length leaves = 1%nat).
  { destruct (q_samples _ _ _ _ Q) as [X|X]; [exact X|]. destruct leaves as [|a [|b l]]; [pose proof (q_total _ _ _ _ Q) as Y; cbn in Y; lra|reflexivity|]. exfalso.
    assert (Z : forall wi, In wi (a :: b :: l) -> in_sint (snd wi) 0 = true).
    { intros wi Hwi. specialize (X wi Hwi). destruct (in_sint (snd wi) 0) eqn:Z; [reflexivity|]. exfalso. cbn [filter] in X. rewrite Z in X. destruct (in_sint (snd wi) 1); cbn [nodup length] in X; [|lia].
      destruct (in_dec Req_EM_T 1 [1]) as [i1|n1]; [|exfalso; apply n1; now left]. destruct (in_dec Req_EM_T 1 []) as [i2|n2]; cbn [length] in X; lia. }
    pose proof (q_points _ _ _ _ Q 0 (or_introl eq_refl)) as P. cbn [filter] in P. rewrite (Z a), (Z b) in P by (cbn; auto). cbn [length] in P. lia. }
  destruct leaves as [|[w i] [|? ?]]; try discriminate. pose proof (q_total _ _ _ _ Q) as W. cbn in W. destruct (q_proper _ _ _ _ Q (w, i) (or_introl eq_refl)) as (a & b & cl & Ei & Hab). cbn [snd] in Ei. subst i.
  assert (C : forall y, in_sint (mkSint (Fin a) (Fin b) true cl) y = true <-> 0 <= y <= 1).
  { intros y. pose proof (q_cover _ _ _ _ Q y) as Cy. unfold in_interval in Cy. cbn [map snd existsb] in Cy. rewrite orb_false_r in Cy. rewrite Cy. split.
    - intros (x1 & x2 & I1 & I2 & Hx). cbn in I1, I2. destruct I1 as [<-|[<-|[<-|[]]]], I2 as [<-|[<-|[<-|[]]]]; lra.
    - intros H. exists 0, 1. cbn. intuition lra. }
  assert (Ia : forall y, a <= y < b -> 0 <= y <= 1). { intros y Hy. apply C. unfold in_sint, above, below. cbn [lo hi lc rc]. destruct (Rleb_spec a y); [|lra]. destruct cl; [destruct (Rleb_spec y b); [reflexivity|lra]|destruct (Rltb_spec y b); [reflexivity|lra]]. }
  assert (Ib : forall y, 0 <= y <= 1 -> a <= y <= b). { intros y Hy. apply C in Hy. unfold in_sint, above, below in Hy. cbn [lo hi lc rc] in Hy. apply andb_true_iff in Hy. destruct Hy as [Y1 Y2]. destruct (Rleb_spec a y); [|discriminate]. destruct cl; [destruct (Rleb_spec y b); [lra|discriminate]|destruct (Rltb_spec y b); [lra|discriminate]]. }
  pose proof (Ia a ltac:(lra)). pose proof (Ib 0 ltac:(lra)). pose proof (Ib 1 ltac:(lra)).
  assert (b = 1). { destruct (Rle_dec b 1); [lra|]. pose proof (Ia ((1 + b) / 2) ltac:(lra)). lra. }
  assert (a = 0) by lra. subst a b. exists w, cl. split; [|lra]. cbn [map fst snd]. apply nyga_root_star. discriminate.
Qed.

Lemma lone_fit fuel u : (6 <= fuel)%nat -> fit_column fuel 1 (KContinuous 1 0 2) [0; 1; 1] = Some u ->
  fit never (create_leaf_node fuel (variables_from_init lone)) lone fuel [[0]; [1]; [1]] [] = ([], Some [mkLeaf (nlog (Fin (INR 3 / INR 3))) (PProd [u]) [0; 1; 2]%nat 0]).
Proof.
  intros Hf D. unfold fit. cbn [app length]. destruct fuel as [|[|fuel]]; try lia. cbn [fit_loop]. unfold c45 at 1. cbn [i_data i_start i_end i_depth Nat.sub].
  assert (M : min_samples_leaf (with_total lone 3) = 3) by (unfold min_samples_leaf; change (raw_min_samples_leaf (with_total lone 3)) with 3; unfold Rltb; destruct (Rlt_dec 3 1); [lra|reflexivity]). rewrite M.
  assert (R1 : Rltb (INR 3) (2 * 3) = true) by (unfold Rltb; destruct (Rlt_dec (INR 3) (2 * 3)) as [|H]; [reflexivity|cbn in H; lra]). rewrite R1, orb_true_r. cbn [nleb].
  change (mapM (nth_error [[0]; [1]; [1]]) (slice (seq 0 3) 0 3)) with (Some [[0]; [1]; [1]]). cbv iota.
  assert (C : create_leaf_node (S (S fuel)) (variables_from_init lone) [[0]; [1]; [1]] = Some (PProd [u])).
  { unfold create_leaf_node. cbn [lone init sorted_by fold_right sort_insert set_targets_and_features variables_from_init map fst Nat.leb length seq combine snd column mapM nth_error]. now rewrite D. }
  rewrite C. cbn [length Nat.eqb app]. reflexivity.
Qed.

(** Three entries 0, 1, 1 of one continuous variable, in one cell: the expectation is one half, the mean two thirds. *)
Theorem C93_refuted : ~ C93_full.
Proof.
  intros F.
  assert (Tk : table_ok (variables_from_init lone) [[0]; [1]; [1]]).
  { split; [|split]; [cbn; repeat constructor; cbn; intuition discriminate|cbn; repeat constructor|].
    intros i v k c Hi _. destruct i as [|i]; cbn in Hi; [|destruct i; discriminate]. injection Hi as <- <-. cbn [column_ok]. split; [lia|lra]. }
  assert (B : respects_contract never (with_total lone 3)) by (intros idx s e gain pos idx' H X; unfold never in X; injection X as <- <- <-; split; [apply reordered_refl; lia|discriminate]).
  destruct (F never lone [[0]; [1]; [1]] 6%nat Tk) as (leaves & E & H); auto.
  - intros i v k c Hi _. destruct i as [|i]; cbn in Hi; [|destruct i; discriminate]. injection Hi as <- <-. exact I.
  - discriminate.
  - discriminate.
  - left. reflexivity.
  - cbn. lra.
  - intros i v k Hi. destruct i as [|i]; cbn in Hi; [|destruct i; discriminate]. injection Hi as <- <-. exact I.
  - destruct (C61_jpt_valid never lone [[0]; [1]; [1]] 6%nat Tk) as (leaves' & E' & L & V); auto; [discriminate|left; reflexivity|cbn; lra|]. rewrite E in E'. injection E' as <-.
    destruct (lone_column 1 6) as (w & cl & D & W); [lia|]. rewrite (lone_fit 6 _ (le_n _) D) in E. match type of E with (_, Some ?a) = (_, Some ?b) => assert (El : b = a) by congruence end. clear E. rewrite El in *. clear El.
    destruct (expectation_moment _ _ L (o_smooth _ _ V)) as (vs & Hv & _ & Ex). destruct (H (@empty_store vec)) as (res & st' & X & Y). rewrite Ex in X.
    assert (Hv1 : In 1%nat vs) by (apply Hv, (o_variables _ _ V); now left).
    set (d := DUnif 1 (mkSint (Fin 0) (Fin 1) true cl)) in *.
    assert (LV : leaf_value (vmap_const vs 1%nat) (vmap_const vs 0) d = 1 / 2). { unfold leaf_value, d. cbn [dvar]. rewrite !vmap_in by exact Hv1. cbn [moment1 lo hi]. rewrite unif_mean by lra. lra. }
    match type of L with layered_circuit ?g ?t => destruct (moment_mix g t (vmap_const vs 1%nat) (vmap_const vs 0) (@empty_store vec) L (o_normalised _ _ V) (o_smooth _ _ V)) as (vs' & st1 & R1 & R2 & _) end.
    + cbn. repeat split; discriminate.
    + cbn [tree_of_leaves all_leaves map fold_right l_weight l_unit fst snd star]. repeat split; auto. exists 1%nat, 0. rewrite LV. unfold d. cbn [dvar]. rewrite !vmap_in by exact Hv1. cbn [moment1 lo hi]. rewrite unif_mean by lra. repeat split. f_equal. lra.
    + rewrite X in R1. match type of R1 with Some (?a, _) = Some (?b, _) => assert (R1' : a = b) by congruence end. clear R1. rename R1' into R1. specialize (Y 0%nat 1%nat _ [0; 1; 1] eq_refl eq_refl). rewrite R1 in Y. apply in_map_iff in Y. destruct Y as (v & Y & _). assert (Ev : v = 1%nat) by congruence. subst v. match type of Y with (_, Fin ?a) = (_, Fin ?b) => assert (Y' : a = b) by congruence end. clear Y. rename Y' into Y.
      unfold tree_of_leaves in Y. cbn [map l_weight l_unit] in Y. rewrite msum_sum in Y. cbn [map fst snd] in Y. rewrite msum_prod in Y. cbn [map] in Y. unfold star in Y. rewrite msum_sum in Y. cbn [map fst snd mix dvar d Nat.eqb] in Y.
      unfold msum in Y. cbn [map fst snd] in Y. fold d in Y. rewrite LV in Y. rewrite (proj2 (ModeFacts.wexp_nlog (INR 3 / INR 3) ltac:(cbn; lra))), (proj2 (ModeFacts.wexp_nlog w ltac:(lra))) in Y.
      unfold average, Rsum in Y. cbn in Y. lra.
Qed.
Print Assumptions C93_refuted.

(** Two rows over an integer and a continuous variable. *)
Example C93_case : let j := init [(1%nat, KInteger); (2%nat, KContinuous 1 0 1)] None None 1 0 PInf PInf None in
  exists leaves, fit cut_first (create_leaf_node 4 (variables_from_init j)) j 4 [[3; 5]; [4; 6]] [] = ([], Some leaves) /\
  forall st, exists res st', expectation (fun _ => false) (circuit_of leaves) st = Some (res, st') /\ In (1%nat, Fin (7 / 2)) res /\ exists m, In (2%nat, Fin m) res /\ 5 <= m <= 6.
Proof.
  intros j. destruct C61_case as (T & B & D & M). fold j in T, B, D, M.
  assert (I3 : Int_part 3 = 3%Z) by (unfold Int_part; replace (up 3) with 4%Z; [reflexivity|apply tech_up; cbn; lra]). assert (I4 : Int_part 4 = 4%Z) by (unfold Int_part; replace (up 4) with 5%Z; [reflexivity|apply tech_up; cbn; lra]).
  destruct (C93_expectation_partial cut_first j [[3; 5]; [4; 6]] 4%nat T) as (leaves & E & H); auto; try discriminate.
  - intros i v k c Hi Hc. destruct i as [|[|i]]; cbn in Hi; [| |destruct i; discriminate]; injection Hi as <- <-; cbn in Hc; injection Hc as <-; cbn [readable]; auto.
    intros x [<-|[<-|[]]]; rewrite ?I3, ?I4; reflexivity.
  - intros i v k Hi. destruct i as [|[|i]]; cbn in Hi; [| |destruct i; discriminate]; injection Hi as <- <-; exact I.
  - exists leaves. split; [exact E|]. intros st. destruct (H st) as (res & st' & R1 & _ & _ & R2). exists res, st'. split; [exact R1|].
    destruct (R2 0%nat 1%nat KInteger [3; 4] eq_refl eq_refl) as (m1 & M1 & ->). destruct (R2 1%nat 2%nat _ [5; 6] eq_refl eq_refl) as (m2 & M2 & M3).
    split; [|exists m2; split; [exact M2|apply M3; intros x [<-|[<-|[]]]; lra]].
    replace (7 / 2) with (average (map (meaning KInteger) [3; 4])); [exact M1|]. unfold average, Rsum. cbn [map meaning length]. rewrite I3, I4. cbn. lra.
Qed.
