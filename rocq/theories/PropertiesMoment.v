(** * Property C26: moments of circuits; C28 as an integral *)
From Coquelicot Require Import Coquelicot.
From Coq Require Import List Arith Bool Lia Reals Lra ZArith Sorting.Sorted.
From Verif Require Import Num Graph GraphFacts Spec SpecFacts Circuit EvalFacts VarFacts Interval GaussInt Dist DistFacts MomentFacts
  TreeProb LeafCond GaussMoment GammaFn GammaFacts TruncMoment PropertiesDist PropertiesQuery PropertiesProb PropertiesSimplify Support SupportFacts CircuitMoment MixFacts.
Import ListNotations.
Local Open Scope R_scope.

(** ** Specification *)

(** [m] is the moment of order [n] about [c] of a leaf: an integral against its density, a sum over its dictionary, the
    power of the distance to a point mass.  Symbolic leaves have no moments. *)
Definition is_moment_of (d : dist) (n : nat) (c m : R) : Prop :=
  match d with
  | DUnif _ _ | DGauss _ _ _ | DTGauss _ _ _ _ => line_integral (fun x => (x - c) ^ n * density d x) m
  | DDirac _ loc _ => m = (loc - c) ^ n
  | DInt _ p => m = Rsum (map (fun kv => snd kv * (IZR (fst kv) - c) ^ n) p)
  | DSym _ _ => False
  end.

(** [M] describes the marginal distribution of [v]: a convex combination of leaves of the circuit that gives every event
    about [v] the probability that the circuit answers when all other variables are free. *)
Definition is_marginal_mixture (g : graph dist) (t : pc dist) (v : nat) (M : list (R * dist)) : Prop :=
  Forall (fun p => 0 <= fst p /\ dvar (snd p) = v /\ forall P, all_leaves P t -> P (snd p)) M /\ Rsum (map fst M) = 1 /\
  forall e A, event_ok t (eset e v A) -> all_leaves (fun d => dvar d <> v -> covers d (e (dvar d))) t ->
    answers g (eset e v A) (Rsum (map (fun p => fst p * probR (snd p) A) M)).

(** [m] is the moment of the marginal of [v]: the combination of the leaf moments. *)
Definition is_marginal_moment (g : graph dist) (t : pc dist) (v n : nat) (c m : R) : Prop :=
  exists M mm, is_marginal_mixture g t v M /\ Forall (fun p => is_moment_of (snd p) n c (mm (snd p))) M /\
    m = Rsum (map (fun p => fst p * mm (snd p)) M).

(** What the code returns: one entry for every variable of the circuit. *)
Definition moments_correct (order : nat -> option nat) (center : nat -> option R) (g : graph dist) (t : pc dist) : Prop :=
  forall st, exists res st', circuit_moment order center g st = Some (res, st') /\
    (forall v, In v (map fst res) <-> mentions dist_vars t v) /\ NoDup (map fst res) /\
    forall v m n c, In (v, m) res -> order v = Some n -> center v = Some c -> exists r, m = Fin r /\ is_marginal_moment g t v n c r.

Definition given {X} (t : pc dist) (f : nat -> option X) : Prop := forall v, mentions dist_vars t v -> f v <> None.

Definition C26_full : Prop := forall g t order center, layered_circuit g t -> normalised t -> smooth dist_vars t ->
  decomposable dist_vars t -> products_nonempty t -> all_leaves dist_ok t -> all_leaves numeric t ->
  given t order -> given t center -> moments_correct order center g t.

(** ** Leaf moments *)

(** The leaf moments that the code computes correctly: point masses only up to order one or about their own location. *)
Definition moment_ok (d : dist) (n : nat) (c : R) : Prop :=
  match d with
  | DUnif _ _ | DGauss _ _ _ | DTGauss _ _ _ _ | DInt _ _ => True
  | DDirac _ loc _ => (n <= 1)%nat \/ c = loc
  | DSym _ _ => False
  end.

Lemma leaf_moment_correct d n c : dist_ok d -> moment_ok d n c -> exists m, moment1 d n c = Some m /\ is_moment_of d n c m.
Proof.
  intros Hok Hm. destruct d as [v i|v loc cap|v mu s|v i mu s|v p|v p]; simpl in Hm; try tauto.
  - destruct Hok as (a & b & E1 & E2 & Hab). exists (unif_moment a b n c). split; [simpl; now rewrite E1, E2|].
    destruct (unif_density v i a b E1 E2 Hab) as (f & Hf & Ef). apply (line_compact _ a b). intros l h Hl Hh.
    apply (is_RInt_ext (fun x => (x - c) ^ n * f x)).
    + intros x _. unfold density. now rewrite Ef.
    + now apply (unif_integral i).
  - exists ((loc - c) ^ n). split; [|reflexivity]. now apply C27_dirac_moment_iff.
  - exists (gauss_moment mu s n c). split; [reflexivity|]. simpl in Hok.
    apply (line_ext (fun x => (x - c) ^ n * gdens mu s x)); [intros x; now rewrite gdens_density|]. now apply gauss_moment_integral.
  - exact (tg_moment_integral v i mu s n c Hok).
  - exists (int_moment p n c). split; reflexivity.
Qed.

(** C28 as an integral: what GaussianDistribution.moment returns is the integral of (x - c)^n against the density. *)
Theorem C28_gaussian_integral v mu sigma n c : 0 < sigma ->
  exists m, moment1 (DGauss v mu sigma) n c = Some m /\
    is_RInt_gen (fun x => (x - c) ^ n * density (DGauss v mu sigma) x) (Rbar_locally m_infty) (Rbar_locally p_infty) m.
Proof. intros Hs. exact (leaf_moment_correct (DGauss v mu sigma) n c Hs I). Qed.

(** The same for TruncatedGaussianDistribution.moment, for bounded, half-bounded and unbounded intervals. *)
Theorem C28_truncated_integral v i mu sigma n c : 0 < sigma -> lo i <> NaN -> hi i <> NaN -> nlt (lo i) (hi i) ->
  exists m, moment1 (DTGauss v i mu sigma) n c = Some m /\
    is_RInt_gen (fun x => (x - c) ^ n * density (DTGauss v i mu sigma) x) (Rbar_locally m_infty) (Rbar_locally p_infty) m.
Proof. intros Hs HL HH Hlt. exact (leaf_moment_correct (DTGauss v i mu sigma) n c (conj Hs (conj HL (conj HH Hlt))) I). Qed.

(** ** The marginal mixture *)
Lemma mix_is_marginal g t v : layered_circuit g t -> normalised t -> smooth dist_vars t -> decomposable dist_vars t ->
  all_leaves dist_ok t -> mentions dist_vars t v -> is_marginal_mixture g t v (mix v t).
Proof.
  intros Hl Hn Hs Hd Hok Hm. split; [|split].
  - apply Forall_forall. intros p Hp. repeat split.
    + now apply (mix_leaf v (fun _ => True) t p (all_leaves_True (fun _ => True) t (fun _ => I))).
    + now apply (mix_leaf v (fun _ => True) t p (all_leaves_True (fun _ => True) t (fun _ => I))).
    + intros P HP. now apply (mix_leaf v P t p HP).
  - now apply mix_total.
  - intros e A He Hc.
    assert (E : semR (fun d => probR d (eset e v A (dvar d))) t = Rsum (map (fun p => fst p * probR (snd p) A) (mix v t))).
    { rewrite (semR_mix v); auto.
      2: { eapply all_leaves_impl; [|apply (all_leaves_and _ _ _ Hok (all_leaves_and _ _ _ He Hc))].
        simpl. intros d [O [OA OC]] Hne. unfold eset in *. rewrite (proj2 (Nat.eqb_neq _ _) Hne) in *. apply probR_total; auto. }
      unfold msum. f_equal. apply map_ext_in. intros p Hp. destruct (mix_leaf v (fun _ => True) t p (all_leaves_True (fun _ => True) t (fun _ => I)) Hp) as [Ev _].
      unfold eset. now rewrite Ev, Nat.eqb_refl. }
    rewrite <- E. apply answers_semR; auto using normalised_lw_ok.
Qed.

(** ** C26 *)

(** Proved part: every leaf moment that is asked for is one that the leaf computes correctly.  Missing: point masses of
    order two and more about a centre other than their location, where the claim is false ([C26_moment_refuted]). *)
Theorem C26_moment_partial g t order center : layered_circuit g t -> normalised t -> smooth dist_vars t ->
  decomposable dist_vars t -> products_nonempty t -> all_leaves dist_ok t ->
  given t order -> given t center ->
  all_leaves (fun d => forall n c, order (dvar d) = Some n -> center (dvar d) = Some c -> moment_ok d n c) t ->
  moments_correct order center g t.
Proof.
  intros Hl Hn Hs Hd Hp Hok Ho Hc Hm st. assert (Hl' := Hl). destruct Hl' as (Hwf & Hlt & r & Hr & Hg & Hu).
  destruct (circuit_variables_spec dist_vars g r t Hr Hu Hs) as (vars & Hv1 & Hv2 & Hv3).
  assert (Hnd : NoDup vars) by (clear - Hv2; induction Hv2 as [|v l H IH HF]; constructor; auto;
    intros Hin; rewrite Forall_forall in HF; specialize (HF v Hin); lia).
  set (nn := fun d => match order (dvar d) with Some n => n | None => 0%nat end).
  set (cc := fun d => match center (dvar d) with Some c => c | None => 0 end).
  set (mm := fun d => match moment1 d (nn d) (cc d) with Some m => m | None => 0 end).
  assert (HL : all_leaves (fun d => (In (dvar d) vars /\ exists n c, order (dvar d) = Some n /\ center (dvar d) = Some c /\ moment1 d n c = Some (mm d)) /\
    is_moment_of d (nn d) (cc d) (mm d)) t).
  { eapply all_leaves_impl; [|apply (all_leaves_and _ _ _ (all_leaves_mentions dist_vars t) (all_leaves_and _ _ _ Hok Hm))]. simpl.
    intros d [H1 [H2 H3]]. assert (Hmv : mentions dist_vars t (dvar d)) by (apply H1; now left).
    destruct (order (dvar d)) as [n|] eqn:En; [|now apply Ho in Hmv]. destruct (center (dvar d)) as [c|] eqn:Ec; [|now apply Hc in Hmv].
    destruct (leaf_moment_correct d n c) as (m & M1 & M2); auto.
    assert (Em : mm d = m) by (unfold mm, nn, cc; now rewrite En, Ec, M1). assert (Enn : nn d = n) by (unfold nn; now rewrite En).
    assert (Ecc : cc d = c) by (unfold cc; now rewrite Ec). rewrite Em, Enn, Ecc. split; [|exact M2].
    split; [now apply Hv3|]. exists n, c. auto. }
  assert (HL1 := HL). eapply all_leaves_impl in HL1; [|intros d [H _]; exact H].
  assert (T := tev_moment vars order center mm t Hnd (unfolds_sums_nonempty g r t Hu) Hp (normalised_lw_ok t Hn) HL1).
  destruct (run_pass_correct _ _ _ g r t _ st Hwf Hlt Hr Hg Hu T) as (st' & R1 & _).
  exists (combine vars (vreal (fun v => msum mm (mix v t)) vars)), st'. unfold circuit_moment. rewrite Hv1, R1.
  assert (Ef : map fst (combine vars (vreal (fun v => msum mm (mix v t)) vars)) = vars).
  { clear. unfold vreal. induction vars; simpl; congruence. }
  split; [reflexivity|]. rewrite Ef. split; [exact Hv3|]. split; [exact Hnd|].
  intros v m n c Hin En Ec.
  assert (Hv : In v vars /\ m = Fin (msum mm (mix v t))).
  { clear - Hin. unfold vreal in Hin. revert Hin. induction vars as [|w vars IH]; simpl; [tauto|]. intros [E|H]; [injection E as <- <-; auto|].
    destruct (IH H). auto. }
  destruct Hv as [Hv ->]. exists (msum mm (mix v t)). split; [reflexivity|]. exists (mix v t), mm.
  split; [|split].
  - apply mix_is_marginal; auto. now apply Hv3.
  - apply Forall_forall. intros p Hpm. destruct (mix_leaf v _ t p HL Hpm) as (E1 & [_ E2] & _).
    unfold nn, cc in E2. rewrite E1, En, Ec in E2. exact E2.
  - reflexivity.
Qed.

(** A moment of a circuit is unique: two descriptions of the marginal of [v] give the same number whenever they assign
    the same moments to the leaves; here for a single leaf. *)
Lemma single_leaf_mixture d v M : dvar d = v -> Forall (fun p => 0 <= fst p /\ dvar (snd p) = v /\ forall P, all_leaves P (PLeaf d) -> P (snd p)) M ->
  Rsum (map fst M) = 1 -> forall mm, Rsum (map (fun p => fst p * mm (snd p)) M) = mm d.
Proof.
  intros Hv HF Hs mm. transitivity (Rsum (map fst M) * mm d); [|rewrite Hs; ring]. clear Hs.
  induction HF as [|p M (_ & _ & H) HF IH]; unfold Rsum in *; simpl; [ring|]. rewrite IH.
  assert (E : snd p = d) by (apply (H (fun x => x = d)); reflexivity). rewrite E. ring.
Qed.

(** ** The expectation (order one about zero) is right for all numeric circuits *)
Theorem C26_expectation_partial g t : layered_circuit g t -> normalised t -> smooth dist_vars t -> decomposable dist_vars t ->
  products_nonempty t -> all_leaves dist_ok t -> all_leaves numeric t ->
  forall st, exists res st', expectation (fun _ => false) g st = Some (res, st') /\
    (forall v, In v (map fst res) <-> mentions dist_vars t v) /\
    forall v m, In (v, m) res -> exists r, m = Fin r /\ is_marginal_moment g t v 1 0 r.
Proof.
  intros Hl Hn Hs Hd Hp Hok Hnum st. assert (Hl' := Hl). destruct Hl' as (Hwf & Hlt & r & Hr & Hg & Hu).
  destruct (circuit_variables_spec dist_vars g r t Hr Hu Hs) as (vars & Hv1 & Hv2 & Hv3).
  unfold expectation. rewrite Hv1. unfold numeric_variables. cbn [negb].
  replace (filter (fun _ => true) vars) with vars by (clear; induction vars; simpl; congruence).
  assert (Hin : forall v, mentions dist_vars t v -> existsb (Nat.eqb v) vars = true).
  { intros v Hv. apply existsb_exists. exists v. split; [now apply Hv3|apply Nat.eqb_refl]. }
  destruct (C26_moment_partial g t (vmap_const vars 1%nat) (vmap_const vars 0)) with (st := st) as (res & st' & R1 & R2 & _ & R3); auto.
  - intros v Hv. unfold vmap_const. rewrite Hin by auto. discriminate.
  - intros v Hv. unfold vmap_const. rewrite Hin by auto. discriminate.
  - eapply all_leaves_impl; [|exact Hnum]. simpl. intros d H1 n c En Ec.
    unfold vmap_const in En. destruct (existsb _ vars); [injection En as <-|discriminate]. destruct d; simpl in *; auto.
  - exists res, st'. split; [exact R1|]. split; [exact R2|]. intros v m H. apply (R3 v m); auto.
    + unfold vmap_const. rewrite Hin; auto. apply R2. now apply (in_map fst) in H.
    + unfold vmap_const. rewrite Hin; auto. apply R2. now apply (in_map fst) in H.
Qed.

(** [variance]: the second moment about the mean.  Missing: as in [C26_moment_partial]; for point masses the claim is false
    ([C26_variance_refuted]). *)
Definition smooth_leaf (d : dist) : Prop := match d with DUnif _ _ | DGauss _ _ _ | DTGauss _ _ _ _ | DInt _ _ => True | _ => False end.

Lemma assoc_In v m l : NoDup (map fst l) -> In (v, m) l -> assoc v l = Some m.
Proof.
  induction l as [|[w x] l IH]; [intros _ []|]. intros Hnd [E|H]; simpl in *; inversion Hnd; subst.
  - injection E as <- <-. now rewrite Nat.eqb_refl.
  - destruct (Nat.eqb_spec w v) as [->|]; [|auto]. apply (in_map fst) in H. contradiction.
Qed.

Theorem C26_variance_partial g t : layered_circuit g t -> normalised t -> smooth dist_vars t -> decomposable dist_vars t ->
  products_nonempty t -> all_leaves dist_ok t -> all_leaves smooth_leaf t ->
  forall st, exists res st', variance (fun _ => false) g st = Some (res, st') /\
    (forall v, In v (map fst res) <-> mentions dist_vars t v) /\
    forall v m, In (v, m) res -> exists mean s2, m = Fin s2 /\ is_marginal_moment g t v 1 0 mean /\ is_marginal_moment g t v 2 mean s2.
Proof.
  intros Hl Hn Hs Hd Hp Hok Hsm st. assert (Hl' := Hl). destruct Hl' as (Hwf & Hlt & r & Hr & Hg & Hu).
  destruct (circuit_variables_spec dist_vars g r t Hr Hu Hs) as (vars & Hv1 & Hv2 & Hv3).
  unfold variance, expectation. rewrite Hv1. unfold numeric_variables. cbn [negb].
  replace (filter (fun _ => true) vars) with vars by (clear; induction vars; simpl; congruence).
  assert (Hin : forall v, mentions dist_vars t v -> existsb (Nat.eqb v) vars = true).
  { intros v Hv. apply existsb_exists. exists v. split; [now apply Hv3|apply Nat.eqb_refl]. }
  assert (G : forall X (x : X), given t (vmap_const vars x)) by (intros X x v Hv; unfold vmap_const; rewrite Hin by auto; discriminate).
  assert (K : forall order center, all_leaves (fun d => forall n c, order (dvar d) = Some n -> center (dvar d) = Some c -> moment_ok d n c) t).
  { intros order center. eapply all_leaves_impl; [|exact Hsm]. intros d H n c _ _. destruct d; simpl in *; tauto. }
  destruct (C26_moment_partial g t (vmap_const vars 1%nat) (vmap_const vars 0)) with (st := st) as (ex & st1 & R1 & R2 & R3 & R4); auto.
  rewrite R1. set (ctr := fun v => match assoc v ex with Some (Fin c) => Some c | _ => None end).
  assert (Hc : forall v, mentions dist_vars t v -> exists mean, ctr v = Some mean /\ is_marginal_moment g t v 1 0 mean).
  { intros v Hv. assert (Hin' := proj2 (R2 v) Hv). apply in_map_iff in Hin' as ([w m] & E & Hin'). simpl in E. subst w.
    destruct (R4 v m 1%nat 0 Hin') as (mean & -> & Hm); [unfold vmap_const; now rewrite Hin..|].
    exists mean. split; [|exact Hm]. unfold ctr. now rewrite (assoc_In v (Fin mean)). }
  destruct (C26_moment_partial g t (vmap_const vars 2%nat) ctr) with (st := st1) as (res & st2 & S1 & S2 & _ & S4); auto.
  { intros v Hv. destruct (Hc v Hv) as (mean & E & _). congruence. }
  exists res, st2. split; [exact S1|]. split; [exact S2|]. intros v m H.
  assert (Hv : mentions dist_vars t v) by (apply S2; now apply (in_map fst) in H).
  destruct (Hc v Hv) as (mean & E & Hm). destruct (S4 v m 2%nat mean H) as (s2 & -> & Hs2); [unfold vmap_const; now rewrite Hin|exact E|].
  exists mean, s2. auto.
Qed.

(** Any symbolic leaf makes [moment], hence [expectation] and [variance], raise NotImplementedError, also when only numeric
    variables are asked for. *)
Theorem C26_symbolic_raises g t u d order center st : layered_circuit g t -> acyclic g -> smooth dist_vars t ->
  In u (node_ids g) -> node_kind g u = Some (ULeaf d) -> ~ numeric d -> circuit_moment order center g st = None.
Proof.
  intros (Hwf & Hlt & r & Hr & Hg & Hu) Hac Hs Hin Hk Hsym. unfold circuit_moment.
  destruct (circuit_variables_spec dist_vars g r t Hr Hu Hs) as (vars & Hv1 & _). rewrite Hv1.
  destruct (bottom_up_spec g r Hwf Hr) as (ls & Hls & Hb & _). unfold run_pass. rewrite Hr, Hb.
  assert (Hraise : forall s, eval_unit (leaf_moment vars order center) (sum_moment (length vars)) (prod_moment (length vars)) g s u = None).
  { intros s. unfold eval_unit. rewrite Hk. unfold leaf_moment. destruct d; simpl in Hsym; try tauto.
    simpl. destruct (order v), (center v); reflexivity. }
  assert (Hu' : In u (concat (rev ls))). { rewrite concat_rev_In. apply (layers_from_In g r ls Hls). now apply (root_reaches_all g r Hwf Hac Hr). }
  assert (F : forall l s, In u l -> eval_order (leaf_moment vars order center) (sum_moment (length vars)) (prod_moment (length vars)) g l s = None).
  { unfold eval_order. induction l as [|w l IH]; intros s H; [destruct H|]. cbn [foldM]. destruct H as [->|H].
    - now rewrite Hraise.
    - destruct (eval_unit _ _ _ g s w); auto. }
  now rewrite F.
Qed.

(** ** Counterexample: the second moment about 1 of a point mass at 3 is answered as 0 *)
Definition point_tree : pc dist := PLeaf (DDirac 0 3 (Fin 1)).
Definition point_graph : graph dist := mkGraph [(0%nat, ULeaf (DDirac 0 3 (Fin 1)))] [].

Lemma point_layered : layered_circuit point_graph point_tree.
Proof.
  split; [|split].
  - constructor; cbn.
    + repeat constructor; cbn; intuition lia.
    + constructor.
    + intros e H. destruct H.
    + intros e H. destruct H.
  - intros e d H. destruct H.
  - exists 0%nat. split; [reflexivity|]. split.
    + exists (fun _ => 0)%nat. split; [reflexivity|]. intros e H. destruct H.
    + apply unf_leaf. reflexivity.
Qed.

Theorem C26_moment_refuted : ~ C26_full.
Proof.
  intros H. destruct (H point_graph point_tree (fun _ => Some 2%nat) (fun _ => Some 1)) with (st := @empty_store vec)
    as (res & st' & R1 & _ & _ & R2); try (simpl; tauto).
  - apply point_layered.
  - exact I.
  - simpl. lra.
  - intros v _. discriminate.
  - intros v _. discriminate.
  - cbn in R1. injection R1 as <- _. destruct (R2 0%nat (Fin 0) 2%nat 1) as (r & E & M & mm & (M1 & M2 & _) & HM & Em); auto; [now left|].
    injection E as <-. rewrite (single_leaf_mixture (DDirac 0 3 (Fin 1)) 0 M) in Em; auto.
    destruct HM as [|p M HM _]; [unfold Rsum in M2; simpl in M2; lra|]. inversion M1 as [|? ? (_ & _ & HP) _]; subst.
    assert (Ed : snd p = DDirac 0 3 (Fin 1)) by (apply (HP (fun x => x = DDirac 0 3 (Fin 1))); reflexivity).
    rewrite Ed in HM. simpl in HM. lra.
Qed.

(** The variance of a fair coin between the point masses 0 and 2 is answered as 0 although it is 1. *)
Definition coin_tree : pc dist := PSum [(Fin (ln (1/2)), PLeaf (DDirac 0 0 (Fin 1))); (Fin (ln (1/2)), PLeaf (DDirac 0 2 (Fin 1)))].
Definition coin_graph : graph dist :=
  mkGraph [(0, USum); (1, ULeaf (DDirac 0 0%R (Fin 1%R))); (2, ULeaf (DDirac 0 2%R (Fin 1%R)))]%nat
    [mkEdge 0 1 (Some (Fin (ln (1/2)))); mkEdge 0 2 (Some (Fin (ln (1/2))))]%nat.

Lemma coin_layered : layered_circuit coin_graph coin_tree.
Proof.
  split; [|split].
  - constructor; cbn.
    + repeat constructor; cbn; intuition lia.
    + repeat constructor; cbn; intuition congruence.
    + intros e H. repeat destruct H as [<-|H]; cbn; tauto.
    + intros e H. repeat destruct H as [<-|H]; cbn; tauto.
  - intros e d H. repeat destruct H as [<-|H]; cbn; try discriminate. destruct H.
  - exists 0%nat. split; [reflexivity|]. split.
    + exists (fun u => if u =? 0 then 0 else 1)%nat. split; [reflexivity|].
      intros e H _. repeat destruct H as [<-|H]; cbn; try reflexivity. destruct H.
    + unfold coin_tree. unf.
Qed.

Theorem C26_variance_refuted : exists st', variance (fun _ => false) coin_graph empty_store = Some ([(0%nat, Fin 0)], st') /\
  is_marginal_moment coin_graph coin_tree 0 1 0 1 /\ is_marginal_moment coin_graph coin_tree 0 2 1 1.
Proof.
  assert (HN : normalised coin_tree) by (cbn; repeat split; auto; [repeat constructor|unfold Rsum; cbn; rewrite !exp_ln by lra; lra]).
  assert (HM : is_marginal_mixture coin_graph coin_tree 0 (mix 0 coin_tree)).
  { apply mix_is_marginal; auto using coin_layered; cbn; tauto || (repeat split; lra) || (intuition lia). }
  cbn in HM. rewrite !exp_ln in HM by lra.
  assert (HE : forall n c, is_marginal_moment coin_graph coin_tree 0 n c (1/2 * (0 - c) ^ n + 1/2 * (2 - c) ^ n)).
  { intros n c. exists [(1/2 * 1, DDirac 0 0 (Fin 1)); (1/2 * 1, DDirac 0 2 (Fin 1))], (fun d => match d with DDirac _ loc _ => (loc - c) ^ n | _ => 0 end).
    split; [exact HM|]. split; [repeat constructor|]. unfold Rsum. cbn [map fold_right fst snd]. ring. }
  destruct (C26_expectation_partial coin_graph coin_tree) with (st := @empty_store vec) as (res & st' & R & _); auto using coin_layered;
    try (cbn; tauto || (repeat split; lra) || (intuition lia)).
  unfold variance. rewrite R.
  assert (V : circuit_variables dist_vars coin_graph = Some [0]%nat) by reflexivity.
  destruct coin_layered as (Hwf & Hlt & r & Hr & Hg & Hu).
  assert (Ex : res = [(0%nat, Fin 1)]).
  { revert R. unfold expectation. rewrite V. unfold circuit_moment. rewrite V.
    assert (T := tev_moment [0]%nat (vmap_const (numeric_variables (fun _ => false) [0]%nat) 1%nat)
      (vmap_const (numeric_variables (fun _ => false) [0]%nat) 0) (fun d => match moment1 d 1 0 with Some m => m | None => 0 end) coin_tree).
    destruct (run_pass_correct _ _ _ coin_graph r coin_tree _ (@empty_store vec) Hwf Hlt Hr Hg Hu (T ltac:(repeat constructor; cbn; intuition lia)
      (unfolds_sums_nonempty _ _ _ Hu) ltac:(cbn; tauto) (normalised_lw_ok _ HN) ltac:(cbn; repeat split; auto; exists 1%nat, 0; auto))) as (s & E & _).
    cbn [length] in E |- *. rewrite E. intros X. injection X as <- _. cbn. unfold msum, Rsum. cbn. rewrite !exp_ln by lra.
    match goal with |- [(_, Fin ?a)] = _ => replace a with 1 by field end. reflexivity. }
  subst res. rewrite V. unfold circuit_moment. rewrite V.
  assert (T := tev_moment [0]%nat (vmap_const (numeric_variables (fun _ => false) [0]%nat) 2%nat)
    (fun v => match assoc v [(0%nat, Fin 1)] with Some (Fin c) => Some c | _ => None end) (fun _ => 0) coin_tree).
  destruct (run_pass_correct _ _ _ coin_graph r coin_tree _ st' Hwf Hlt Hr Hg Hu (T ltac:(repeat constructor; cbn; intuition lia)
    (unfolds_sums_nonempty _ _ _ Hu) ltac:(cbn; tauto) (normalised_lw_ok _ HN) ltac:(cbn; repeat split; auto; exists 2%nat, 1; auto))) as (s & E & _).
  cbn [length] in E |- *. rewrite E. exists s. split; [|split].
  - cbn. unfold msum, Rsum. cbn. match goal with |- Some ([(_, Fin ?a)], _) = _ => replace a with 0 by ring end. reflexivity.
  - assert (H := HE 1%nat 0). replace (1/2 * (0 - 0) ^ 1 + 1/2 * (2 - 0) ^ 1) with 1 in H by (simpl; field). exact H.
  - assert (H := HE 2%nat 1). replace (1/2 * (0 - 1) ^ 2 + 1/2 * (2 - 1) ^ 2) with 1 in H by (simpl; field). exact H.
Qed.

(** ** Concrete cases *)
Lemma demo_moment_hyps : products_nonempty demo_tree.
Proof. cbn; repeat split; auto; discriminate. Qed.

(** All third moments of the mixture [demo_graph] about 5. *)
Example demo_moments : moments_correct (fun _ => Some 3%nat) (fun _ => Some 5) demo_graph demo_tree.
Proof.
  destruct demo_ok as (L & N & O & S & D & _). assert (P := demo_moment_hyps).
  apply C26_moment_partial; auto; try (intros v _; discriminate). cbn. tauto.
Qed.

(** The computed expectations: 1/4 * 1 + 3/4 * 2 and 1/4 * 3 + 3/4 * 4. *)
Example demo_expectation : exists st', expectation (fun _ => false) demo_graph empty_store = Some ([(0%nat, Fin (7/4)); (1%nat, Fin (15/4))], st').
Proof.
  destruct (C26_expectation_partial demo_graph demo_tree) with (st := @empty_store vec) as (res & st' & R & _); try apply demo_ok; try apply demo_moment_hyps.
  exists st'. rewrite R. f_equal. f_equal. revert R.
  assert (V : circuit_variables dist_vars demo_graph = Some [0; 1]%nat) by reflexivity.
  unfold expectation. rewrite V. unfold circuit_moment. rewrite V.
  destruct demo_ok as ((Hwf & Hlt & r & Hr & Hg & Hu) & N & O & S & D & _).
  set (mm := fun d => match moment1 d 1 0 with Some m => m | None => 0 end).
  assert (T := tev_moment [0; 1]%nat (vmap_const (numeric_variables (fun _ => false) [0; 1]%nat) 1%nat)
    (vmap_const (numeric_variables (fun _ => false) [0; 1]%nat) 0) mm demo_tree).
  destruct (run_pass_correct _ _ _ demo_graph r demo_tree _ (@empty_store vec) Hwf Hlt Hr Hg Hu (T ltac:(repeat constructor; cbn; intuition lia)
    (unfolds_sums_nonempty _ _ _ Hu) demo_moment_hyps (normalised_lw_ok _ N)
    ltac:(cbn; repeat split; auto; exists 1%nat, 0; auto))) as (s & E & _).
  cbn [length] in E. cbn [length]. rewrite E. intros X. injection X as <- _. cbn [combine vreal map]. 
  unfold msum, Rsum, mm. cbn [map mix flat_map app fst snd fold_right moment1 demo_tree dvar Nat.eqb lo hi iclosed_open wexp].
  rewrite gauss_moment_binom. unfold binom. cbn. unfold unif_moment, unif_pdf, int_moment, Rsum. cbn.
  replace (exp (- ln (4 - 0))) with (1/4) by (rewrite exp_Ropp, exp_ln by lra; lra).
  rewrite !exp_ln by lra.
  match goal with |- [(_, Fin ?a); (_, Fin ?b)] = _ => replace a with (7/4) by field; replace b with (15/4) by field end. reflexivity.
Qed.

Example demo_variance : exists res st', variance (fun _ => false) demo_graph empty_store = Some (res, st').
Proof.
  destruct demo_ok as (L & N & O & S & D & _). assert (P := demo_moment_hyps).
  destruct (C26_variance_partial demo_graph demo_tree L N S D P O) with (st := @empty_store vec) as (res & st' & R & _); [cbn; tauto|eauto].
Qed.

Example symbolic_expectation st : expectation (fun v => v =? 1)%nat
  (mkGraph [(0, UProd); (1, ULeaf (DUnif 0 (iclosed 0%R 1%R))); (2, ULeaf (DSym 1 [(0%Z, 1%R)]))]%nat [mkEdge 0 1 None; mkEdge 0 2 None]%nat) st = None.
Proof. reflexivity. Qed.

(** The mean of a standard normal distribution cut to the non-negative numbers is sqrt (2 / pi). *)
Example half_normal_mean : moment1 (DTGauss 0 (mkSint (Fin 0) PInf true false) 0 1) 1 0 = Some (sqrt 2 / sqrt PI).
Proof.
  assert (P0 : PhiR 0 = / 2) by (unfold PhiR; rewrite RInt_point; unfold zero; simpl; ring).
  cbn [moment1]. unfold tg_moment, tg_const, gauss_cdf. destruct (Rlt_dec 0 1) as [_|]; [|lra]. cbn [hi lo Phi nsub nopp nadd zscore].
  replace ((0 - 0) / 1) with 0 by field. rewrite P0. destruct (Req_EM_T (1 + - / 2) 0) as [|_]; [lra|]. f_equal.
  cbn [seq fold_left]. unfold tg_summand, gamma_of_bound, gamma_cdf. cbn [Nat.even np_sign Nat.sub pow comb INR].
  destruct (Rle_dec _ 0) as [_|X]; [|exfalso; apply X; lra].
  replace (Rpower 2 (1 / 2)) with (sqrt 2) by (replace (1 / 2) with (/ 2) by field; rewrite Rpower_sqrt; lra).
  cbn [gamma_half]. pose proof sqrt_PI_pos. destruct (Rlt_dec 0 0); [lra|]. change (INR (1 + 0)) with 1. field. lra.
Qed.

Print Assumptions C26_moment_partial.
Print Assumptions C26_expectation_partial.
Print Assumptions C26_variance_partial.
Print Assumptions C26_variance_refuted.
Print Assumptions C26_symbolic_raises.
Print Assumptions C26_moment_refuted.
Print Assumptions C28_gaussian_integral.
Print Assumptions C28_truncated_integral.
