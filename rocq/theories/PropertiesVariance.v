(** * Property C59: expectation and variance *)
From Coquelicot Require Import Coquelicot.
From Coq Require Import List Arith Bool Lia Reals Lra ZArith Sorting.Sorted.
From Verif Require Import Num Graph GraphFacts Spec SpecFacts Circuit EvalFacts VarFacts Interval GaussInt Dist DistFacts MomentFacts
  TreeProb LeafCond GaussMoment TruncMoment PropertiesDist PropertiesQuery PropertiesProb PropertiesSimplify Support SupportFacts CircuitMoment MixFacts PropertiesMoment.
Import ListNotations.
Local Open Scope R_scope.
Local Set Bullet Behavior "Strict Subproofs".

(** ** Specification *)

(** The answers of [variance]: one number per variable of the circuit, which is not negative and is the second moment of the
    marginal about its first moment. *)
Definition variance_right (g : graph dist) (t : pc dist) : Prop :=
  forall st, exists res st', variance (fun _ => false) g st = Some (res, st') /\ (forall v, In v (map fst res) <-> mentions dist_vars t v) /\
    forall v m, In (v, m) res -> exists mean s2, m = Fin s2 /\ 0 <= s2 /\ is_marginal_moment g t v 1 0 mean /\ is_marginal_moment g t v 2 mean s2.

Definition C59_full : Prop := forall g t, layered_circuit g t -> normalised t -> smooth dist_vars t -> decomposable dist_vars t ->
  products_nonempty t -> all_leaves dist_ok t -> all_leaves numeric t -> variance_right g t.

(** ** Second moments of leaves *)
Lemma second_moment_pos d c m : dist_ok d -> moment1 d 2 c = Some m -> 0 <= m.
Proof.
  destruct d as [v i|v loc cap|v mu s|v i mu s|v p|v p]; intros Hok E; cbn [moment1] in E; try discriminate.
  - destruct Hok as (a & b & E1 & E2 & Hab). rewrite E1, E2 in E. injection E as <-. unfold unif_moment, unif_pdf. rewrite exp_Ropp, exp_ln by lra.
    replace (2 + 1)%nat with 3%nat by reflexivity. replace (INR 3) with 3 by (simpl; lra).
    replace (/ (b - a) * (b - c) ^ 3 / 3 - / (b - a) * (a - c) ^ 3 / 3) with (((b - c) ^ 2 + (b - c) * (a - c) + (a - c) ^ 2) / 3) by (field; lra).
    assert (0 <= ((b - c) + (a - c) / 2) ^ 2) by apply pow2_ge_0. assert (0 <= (a - c) ^ 2) by apply pow2_ge_0. nra.
  - injection E as <-. simpl. lra.
  - injection E as <-. replace (gauss_moment mu s 2 c) with (s ^ 2 + (mu - c) ^ 2).
    + apply Rplus_le_le_0_compat; apply pow2_ge_0.
    + unfold gauss_moment, raw_moment. cbn. field.
  - destruct (tg_moment_integral v i mu s 2 c Hok) as (m' & E' & H). rewrite E in E'. injection E' as <-.
    apply (line_nonneg _ _ (fun x => Rmult_le_pos _ _ (pow2_ge_0 (x - c)) (density_nonneg (DTGauss v i mu s) x)) H).
  - injection E as <-. unfold int_moment. apply Rsum_nonneg. apply Forall_map, Forall_forall. intros kv Hkv.
    apply Rmult_le_pos; [|apply pow2_ge_0]. destruct Hok as [[_ H] _]. rewrite Forall_forall in H. apply H. now apply (in_map snd).
Qed.

(** The true second moment of a leaf, and what the code answers: never more. *)
Definition true_moment (d : dist) (n : nat) (c : R) : R :=
  match d with DDirac _ loc _ => (loc - c) ^ n | _ => match moment1 d n c with Some m => m | None => 0 end end.

Lemma true_moment_right d n c : dist_ok d -> numeric d -> is_moment_of d n c (true_moment d n c).
Proof.
  intros Hok Hn. destruct d as [v i|v loc cap|v mu s|v i mu s|v p|v p]; simpl in Hn; try tauto.
  - destruct (leaf_moment_correct (DUnif v i) n c Hok I) as (m & E & H). unfold true_moment. now rewrite E.
  - reflexivity.
  - destruct (leaf_moment_correct (DGauss v mu s) n c Hok I) as (m & E & H). unfold true_moment. now rewrite E.
  - destruct (leaf_moment_correct (DTGauss v i mu s) n c Hok I) as (m & E & H). unfold true_moment. now rewrite E.
  - destruct (leaf_moment_correct (DInt v p) n c Hok I) as (m & E & H). unfold true_moment. now rewrite E.
Qed.

Lemma moment1_defined d n c : dist_ok d -> numeric d -> exists m, moment1 d n c = Some m.
Proof.
  intros Hok Hn. destruct d as [v i|v loc cap|v mu s|v i mu s|v p|v p]; simpl in Hn; try tauto; cbn [moment1]; eauto.
  - destruct Hok as (a & b & E1 & E2 & _). rewrite E1, E2. eauto.
  - destruct (tg_moment_integral v i mu s n c Hok) as (m & E & _). eauto.
Qed.

(** ** What the circuit answers: the mixture of what the leaves answer *)
Lemma circuit_moment_mix g t order center mm st : layered_circuit g t -> normalised t -> smooth dist_vars t -> products_nonempty t ->
  all_leaves (fun d => exists n c, order (dvar d) = Some n /\ center (dvar d) = Some c /\ moment1 d n c = Some (mm d)) t ->
  exists res st', circuit_moment order center g st = Some (res, st') /\ (forall v, In v (map fst res) <-> mentions dist_vars t v) /\
    NoDup (map fst res) /\ forall v m, In (v, m) res -> m = Fin (msum mm (mix v t)).
Proof.
  intros Hl Hn Hs Hp Hm. destruct Hl as (Hwf & Hlt & r & Hr & Hg & Hu).
  destruct (circuit_variables_spec dist_vars g r t Hr Hu Hs) as (vars & Hv1 & Hv2 & Hv3).
  assert (Hnd : NoDup vars) by (clear - Hv2; induction Hv2 as [|v l H IH HF]; constructor; auto;
    intros Hin; rewrite Forall_forall in HF; specialize (HF v Hin); lia).
  assert (HL : all_leaves (fun d => In (dvar d) vars /\ exists n c, order (dvar d) = Some n /\ center (dvar d) = Some c /\ moment1 d n c = Some (mm d)) t).
  { eapply all_leaves_impl; [|apply (all_leaves_and _ _ _ (all_leaves_mentions dist_vars t) Hm)]. simpl.
    intros d [H1 H2]. split; [|exact H2]. apply Hv3. apply H1. now left. }
  assert (T := tev_moment vars order center mm t Hnd (unfolds_sums_nonempty g r t Hu) Hp (normalised_lw_ok t Hn) HL).
  destruct (run_pass_correct _ _ _ g r t _ st Hwf Hlt Hr Hg Hu T) as (st' & R1 & _).
  exists (combine vars (vreal (fun v => msum mm (mix v t)) vars)), st'. unfold circuit_moment. rewrite Hv1, R1.
  assert (Ef : map fst (combine vars (vreal (fun v => msum mm (mix v t)) vars)) = vars).
  { clear. unfold vreal. induction vars; simpl; congruence. }
  split; [reflexivity|]. rewrite Ef. split; [exact Hv3|]. split; [exact Hnd|].
  intros v m Hin. clear - Hin. unfold vreal in Hin. revert Hin. induction vars as [|w vars IH]; simpl; [tauto|].
  intros [E|H]; [injection E as <- <-; reflexivity|]. now apply IH.
Qed.

Definition mean_of (t : pc dist) (v : nat) : R := msum (fun d => true_moment d 1 0) (mix v t).
Definition answered (t : pc dist) (v : nat) : R :=
  msum (fun d => match moment1 d 2 (mean_of t (dvar d)) with Some m => m | None => 0 end) (mix v t).
Definition true_variance (t : pc dist) (v : nat) : R := msum (fun d => true_moment d 2 (mean_of t v)) (mix v t).

(** What [variance] answers, for all circuits over numeric leaves. *)
Lemma variance_answer g t st : layered_circuit g t -> normalised t -> smooth dist_vars t -> products_nonempty t ->
  all_leaves dist_ok t -> all_leaves numeric t ->
  exists res st', variance (fun _ => false) g st = Some (res, st') /\ (forall v, In v (map fst res) <-> mentions dist_vars t v) /\
    NoDup (map fst res) /\ forall v m, In (v, m) res -> m = Fin (answered t v).
Proof.
  intros Hl Hn Hs Hp Hok Hnum. assert (Hl' := Hl). destruct Hl' as (Hwf & Hlt & r & Hr & Hg & Hu).
  destruct (circuit_variables_spec dist_vars g r t Hr Hu Hs) as (vars & Hv1 & Hv2 & Hv3).
  unfold variance, expectation. rewrite Hv1. unfold numeric_variables. cbn [negb].
  replace (filter (fun _ => true) vars) with vars by (clear; induction vars; simpl; congruence).
  assert (Hin : forall v, mentions dist_vars t v -> existsb (Nat.eqb v) vars = true).
  { intros v Hv. apply existsb_exists. exists v. split; [now apply Hv3|apply Nat.eqb_refl]. }
  assert (A : all_leaves (fun d => mentions dist_vars t (dvar d) /\ dist_ok d /\ numeric d) t).
  { apply all_leaves_and; [|apply all_leaves_and; auto].
    eapply all_leaves_impl; [|apply (all_leaves_mentions dist_vars t)]. intros d H. apply H. now left. }
  destruct (circuit_moment_mix g t (vmap_const vars 1%nat) (vmap_const vars 0) (fun d => true_moment d 1 0) st) as (ex & st1 & R1 & R2 & R3 & R4); auto.
  { eapply all_leaves_impl; [|exact A]. intros d (H1 & H2 & H3). exists 1%nat, 0. unfold vmap_const. rewrite Hin by auto.
    split; [reflexivity|]. split; [reflexivity|]. unfold true_moment. destruct (moment1_defined d 1 0 H2 H3) as (m & E). rewrite E.
    destruct d; try reflexivity. simpl in *. rewrite <- E. f_equal. ring. }
  rewrite R1. set (ctr := fun v => match assoc v ex with Some (Fin c) => Some c | _ => None end).
  assert (Hc : forall v, mentions dist_vars t v -> ctr v = Some (mean_of t v)).
  { intros v Hv. assert (Hin' := proj2 (R2 v) Hv). apply in_map_iff in Hin' as ([w m] & E & Hin'). simpl in E. subst w.
    unfold ctr. rewrite (assoc_In v m ex R3 Hin'). now rewrite (R4 v m Hin'). }
  apply circuit_moment_mix; auto.
  eapply all_leaves_impl; [|exact A]. intros d (H1 & H2 & H3). exists 2%nat, (mean_of t (dvar d)). unfold vmap_const. rewrite Hin by auto.
  split; [reflexivity|]. split; [now apply Hc|]. destruct (moment1_defined d 2 (mean_of t (dvar d)) H2 H3) as (m & ->). reflexivity.
Qed.

Lemma mean_right g t v : layered_circuit g t -> normalised t -> smooth dist_vars t -> decomposable dist_vars t -> all_leaves dist_ok t ->
  all_leaves numeric t -> mentions dist_vars t v -> is_marginal_moment g t v 1 0 (mean_of t v).
Proof.
  intros Hl Hn Hs Hd Hok Hnum Hm. exists (mix v t), (fun d => true_moment d 1 0). split; [now apply mix_is_marginal|].
  split; [|reflexivity]. apply Forall_forall. intros p Hp.
  destruct (mix_leaf v _ t p (all_leaves_and _ _ _ Hok Hnum) Hp) as (_ & (H1 & H2) & _). now apply true_moment_right.
Qed.

Lemma true_variance_right g t v : layered_circuit g t -> normalised t -> smooth dist_vars t -> decomposable dist_vars t -> all_leaves dist_ok t ->
  all_leaves numeric t -> mentions dist_vars t v -> is_marginal_moment g t v 2 (mean_of t v) (true_variance t v).
Proof.
  intros Hl Hn Hs Hd Hok Hnum Hm. exists (mix v t), (fun d => true_moment d 2 (mean_of t v)). split; [now apply mix_is_marginal|].
  split; [|reflexivity]. apply Forall_forall. intros p Hp.
  destruct (mix_leaf v _ t p (all_leaves_and _ _ _ Hok Hnum) Hp) as (_ & (H1 & H2) & _). now apply true_moment_right.
Qed.

(** The mass that [v]'s point masses contribute and the code forgets. *)
Definition forgotten (t : pc dist) (v : nat) : R := msum (fun d => match d with DDirac _ loc _ => (loc - mean_of t v) ^ 2 | _ => 0 end) (mix v t).

Lemma answered_forgotten t v : all_leaves dist_ok t -> all_leaves numeric t ->
  true_variance t v = answered t v + forgotten t v.
Proof.
  intros Hok Hnum. unfold true_variance, answered, forgotten, msum.
  assert (H : Forall (fun p => dvar (snd p) = v) (mix v t)).
  { apply Forall_forall. intros p Hp. now destruct (mix_leaf v (fun _ => True) t p (all_leaves_True (fun _ => True) t (fun _ => I)) Hp). }
  induction H as [|p l E H IH]; [unfold Rsum; simpl; ring|]. unfold Rsum in *. cbn [map fold_right]. rewrite IH, E.
  destruct (snd p); unfold true_moment; cbn; ring.
Qed.

(** ** C59 *)

(** Proved part: all circuits over numeric leaves have a non-negative variance, the true second
    moment about the mean without what the point masses contribute.  It is right if every point mass lies at the mean of its
    variable, in particular without point masses.  Missing: other point masses, where the claim is
    false ([C59_refuted]). *)
Theorem C59_variance_answer g t st : layered_circuit g t -> normalised t -> smooth dist_vars t -> decomposable dist_vars t ->
  products_nonempty t -> all_leaves dist_ok t -> all_leaves numeric t ->
  exists res st', variance (fun _ => false) g st = Some (res, st') /\ (forall v, In v (map fst res) <-> mentions dist_vars t v) /\
    forall v m, In (v, m) res -> exists mean s2 f, m = Fin (s2 - f) /\ 0 <= f <= s2 /\
      is_marginal_moment g t v 1 0 mean /\ is_marginal_moment g t v 2 mean s2 /\
      exists M, is_marginal_mixture g t v M /\ f = Rsum (map (fun p => fst p * match snd p with DDirac _ loc _ => (loc - mean) ^ 2 | _ => 0 end) M).
Proof.
  intros Hl Hn Hs Hd Hp Hok Hnum. destruct (variance_answer g t st Hl Hn Hs Hp Hok Hnum) as (res & st' & R1 & R2 & _ & R3).
  exists res, st'. split; [exact R1|]. split; [exact R2|]. intros v m Hin.
  assert (Hv : mentions dist_vars t v) by (apply R2; now apply (in_map fst) in Hin).
  exists (mean_of t v), (true_variance t v), (forgotten t v).
  assert (E := answered_forgotten t v Hok Hnum).
  assert (P : forall F, (forall p, In p (mix v t) -> 0 <= F (snd p)) -> 0 <= msum F (mix v t)).
  { intros F HF. unfold msum. apply Rsum_nonneg. apply Forall_map, Forall_forall. intros p Hp'.
    apply Rmult_le_pos; [|auto]. now destruct (mix_leaf v (fun _ => True) t p (all_leaves_True (fun _ => True) t (fun _ => I)) Hp'). }
  assert (P1 : 0 <= answered t v).
  { apply P. intros p Hp'. destruct (mix_leaf v _ t p Hok Hp') as (Ev & H & _).
    destruct (moment1 (snd p) 2 (mean_of t (dvar (snd p)))) as [x|] eqn:Ex; [|lra]. exact (second_moment_pos _ _ _ H Ex). }
  assert (P2 : 0 <= forgotten t v).
  { apply P. intros p _. destruct (snd p); try lra. apply pow2_ge_0. }
  split; [rewrite (R3 v m Hin); f_equal; lra|]. split; [lra|]. split; [now apply mean_right|]. split; [now apply true_variance_right|].
  exists (mix v t). split; [now apply mix_is_marginal|reflexivity].
Qed.

Definition at_mean (g : graph dist) (t : pc dist) (d : dist) : Prop :=
  match d with DDirac v loc _ => forall mean, is_marginal_moment g t v 1 0 mean -> loc = mean | _ => True end.

Theorem C59_variance_partial g t : layered_circuit g t -> normalised t -> smooth dist_vars t -> decomposable dist_vars t ->
  products_nonempty t -> all_leaves dist_ok t -> all_leaves numeric t -> all_leaves (at_mean g t) t -> variance_right g t.
Proof.
  intros Hl Hn Hs Hd Hp Hok Hnum Hat st. destruct (variance_answer g t st Hl Hn Hs Hp Hok Hnum) as (res & st' & R1 & R2 & _ & R3).
  exists res, st'. split; [exact R1|]. split; [exact R2|]. intros v m Hin.
  assert (Hv : mentions dist_vars t v) by (apply R2; now apply (in_map fst) in Hin).
  assert (E := answered_forgotten t v Hok Hnum).
  assert (F0 : forgotten t v = 0).
  { unfold forgotten, msum. apply Rsum_zero. intros p Hp'. destruct (mix_leaf v _ t p Hat Hp') as (Ev & H & _).
    destruct (snd p); try ring. simpl in Ev, H. subst. rewrite (H (mean_of t v)) by now apply mean_right. ring. }
  exists (mean_of t v), (answered t v). split; [now apply R3|]. split.
  - unfold answered, msum. apply Rsum_nonneg. apply Forall_map, Forall_forall. intros p Hp'.
    destruct (mix_leaf v _ t p Hok Hp') as (Ev & H & Hw). apply Rmult_le_pos; [exact Hw|].
    destruct (moment1 (snd p) 2 (mean_of t (dvar (snd p)))) as [x|] eqn:Ex; [|lra]. exact (second_moment_pos _ _ _ H Ex).
  - split; [now apply mean_right|]. replace (answered t v) with (true_variance t v) by lra. now apply true_variance_right.
Qed.

(** The variance of a Dirac distribution is zero, and that is its second moment about its mean. *)
Theorem C59_dirac g v loc cap : layered_circuit g (PLeaf (DDirac v loc cap)) -> nonneg cap ->
  forall st, exists st', variance (fun _ => false) g st = Some ([(v, Fin 0)], st') /\
    is_marginal_moment g (PLeaf (DDirac v loc cap)) v 1 0 loc /\ is_marginal_moment g (PLeaf (DDirac v loc cap)) v 2 loc 0.
Proof.
  intros Hl Hc st. set (t := PLeaf (DDirac v loc cap)) in *.
  destruct (variance_answer g t st Hl) as (res & st' & R1 & R2 & R3 & R4); try exact I; try exact Hc.
  assert (A0 : answered t v = 0) by (unfold answered, msum, Rsum, t; simpl; rewrite Nat.eqb_refl; simpl; ring).
  assert (E : res = [(v, Fin 0)]).
  { destruct res as [|[w m] res].
    - destruct (proj2 (R2 v)); [simpl; now left].
    - assert (Hw : w = v) by (destruct (proj1 (R2 w)) as [X|[]]; [now left|exact (eq_sym X)]). subst w.
      rewrite (R4 v m (or_introl eq_refl)), A0. f_equal. destruct res as [|[w m'] res]; [reflexivity|].
      exfalso. simpl in R3. inversion R3 as [|? ? N _]; subst. apply N. left. destruct (proj1 (R2 w)) as [X|[]]; [right; now left|exact (eq_sym X)]. }
  subst res. exists st'. split; [exact R1|].
  assert (M : is_marginal_mixture g t v [(1, DDirac v loc cap)]).
  { assert (H : is_marginal_mixture g t v (mix v t)).
    { apply mix_is_marginal; try exact I; auto. simpl. now left. }
    unfold t in H at 2. cbn [mix dvar] in H. now rewrite Nat.eqb_refl in H. }
  split.
  - exists [(1, DDirac v loc cap)], (fun _ => (loc - 0) ^ 1). split; [exact M|]. split; [repeat constructor|]. unfold Rsum. simpl. ring.
  - exists [(1, DDirac v loc cap)], (fun _ => (loc - loc) ^ 2). split; [exact M|]. split; [repeat constructor|]. unfold Rsum. simpl. ring.
Qed.

(** ** Counterexample: a fair coin between 0 and 2 *)
Theorem C59_refuted : ~ C59_full.
Proof.
  intros H. destruct C26_variance_refuted as (st & V & _).
  assert (HN : normalised coin_tree) by (cbn; repeat split; auto; [repeat constructor|unfold Rsum; cbn; rewrite !exp_ln by lra; lra]).
  destruct (H coin_graph coin_tree) with (st := @empty_store vec) as (res & st' & R1 & _ & R2); auto using coin_layered;
    try (cbn; tauto || (repeat split; lra) || (intuition lia)).
  rewrite V in R1. injection R1 as <- _. destruct (R2 0%nat (Fin 0) (or_introl eq_refl)) as (mean & s2 & E & _ & _ & M & mm & (M1 & M2 & M3) & HM & Em).
  injection E as <-.
  assert (Z : Forall (fun p => 0 <= fst p /\ (fst p = 0 \/ exists cap, snd p = DDirac 0 mean cap)) M).
  { assert (Hpos : Forall (fun x => 0 <= x) (map (fun p => fst p * mm (snd p)) M)).
    { apply Forall_map, Forall_forall. intros p Hp. rewrite Forall_forall in M1, HM. specialize (HM p Hp). destruct (M1 p Hp) as (W & _ & HP).
      assert (Hd : exists loc, snd p = DDirac 0 loc (Fin 1)) by (apply (HP (fun d => exists loc, d = DDirac 0 loc (Fin 1))); cbn; eauto).
      destruct Hd as (loc & Ed). rewrite Ed in HM |- *. simpl in HM. rewrite HM. apply Rmult_le_pos; [exact W|]. apply pow2_ge_0. }
    assert (Hz := Rsum_nonneg_zero _ Hpos (eq_sym Em)). clear Hpos. rewrite Forall_map, Forall_forall in Hz.
    apply Forall_forall. intros p Hp. rewrite Forall_forall in M1, HM. specialize (HM p Hp). destruct (M1 p Hp) as (W & _ & HP). split; [exact W|].
    assert (Hd : exists loc, snd p = DDirac 0 loc (Fin 1)) by (apply (HP (fun d => exists loc, d = DDirac 0 loc (Fin 1))); cbn; eauto).
    destruct Hd as (loc & Ed). specialize (Hz p Hp). simpl in Hz. rewrite Ed in HM, Hz |- *. simpl in HM. rewrite HM in Hz.
    apply Rmult_integral in Hz as [Hz|Hz]; [now left|right]. exists (Fin 1). f_equal. nra. }
  set (A := EInt [mkSint (Fin 0) (Fin 0) true true]).
  set (e := fun _ : nat => EInt [ireals]).
  assert (Hev : event_ok coin_tree (eset e 0 A)).
  { assert (Hi : interval_ok [mkSint (Fin 0) (Fin 0) true true] /\ [mkSint (Fin 0) (Fin 0) true true] <> []).
    { split; [|discriminate]. split; [|cbn; split; [intros ? []|exact I]]. constructor; [|constructor]. unfold sint_ok. cbn. repeat split; try discriminate. right. exists 0. auto. }
    cbn. auto. }
  assert (Hcov : all_leaves (fun d => dvar d <> 0%nat -> covers d (e (dvar d))) coin_tree) by (cbn; repeat split; intros X; destruct X; reflexivity).
  assert (HX : is_marginal_mixture coin_graph coin_tree 0 (mix 0 coin_tree)).
  { apply mix_is_marginal; auto using coin_layered; cbn; tauto || (repeat split; lra) || (intuition lia). }
  destruct HX as (_ & _ & HX). destruct (HX e A Hev Hcov (@empty_store num)) as (s1 & Q1). destruct (M3 e A Hev Hcov (@empty_store num)) as (s3 & Q3).
  rewrite Q1 in Q3. injection Q3 as Q3 _. clear - Z M2 Q3. cbn in Q3. rewrite !exp_ln in Q3 by lra.
  unfold Rsum in Q3 at 1. cbn in Q3. unfold in_interval, in_sint in Q3. cbn in Q3.
  assert (B1 : Rleb 0 0 = true) by (unfold Rleb; destruct (Rle_dec 0 0); [reflexivity|lra]).
  assert (B2 : Rleb 2 0 = false) by (unfold Rleb; destruct (Rle_dec 2 0); [lra|reflexivity]).
  rewrite B1, B2 in Q3. cbn [andb orb] in Q3. rewrite Bool.andb_false_r in Q3. cbn [orb ind] in Q3.
  assert (T : Rsum (map (fun p : R * dist => fst p * probR (snd p) A) M) = Rsum (map fst M) * ind (in_evset A mean)).
  { clear Q3 M2. induction Z as [|p M (_ & Hp) Z IH]; unfold Rsum in *; cbn [map fold_right]; [ring|]. rewrite IH.
    destruct Hp as [E|(cap & E)]; [rewrite E; ring|]. rewrite E. cbn [probR]. ring. }
  unfold Rsum in T at 1. rewrite T, M2 in Q3. destruct (in_evset A mean); cbn [ind] in Q3; lra.
Qed.

(** ** Concrete cases *)

(** A mixture of two Gaussian-uniform products: no point masses. *)
Example C59_demo : variance_right demo_graph demo_tree.
Proof.
  destruct demo_ok as (L & N & O & S & D & _). assert (P := demo_moment_hyps). apply C59_variance_partial; auto; cbn; tauto.
Qed.

(** The answer is 0 for the coin, the true variance 1: all of it is forgotten. *)
Example C59_coin : answered coin_tree 0 = 0 /\ true_variance coin_tree 0 = 1 /\ forgotten coin_tree 0 = 1.
Proof.
  assert (M : mean_of coin_tree 0 = 1) by (unfold mean_of, msum, Rsum; cbn; rewrite !exp_ln by lra; field).
  unfold answered, true_variance, forgotten. rewrite M. unfold msum, Rsum. cbn. rewrite !exp_ln by lra. repeat split; field.
Qed.

Example C59_point : exists st', variance (fun _ => false) point_graph empty_store = Some ([(0%nat, Fin 0)], st').
Proof. destruct (C59_dirac point_graph 0 3 (Fin 1) point_layered) with (st := @empty_store vec) as (st' & H & _); [simpl; lra|]. eauto. Qed.

Print Assumptions C59_variance_answer.
Print Assumptions C59_variance_partial.
Print Assumptions C59_dirac.
Print Assumptions C59_refuted.
