(** * Property C71: fully factorized circuits have independent variables with the requested distributions *)
From Coq Require Import List Arith Bool Lia Reals Lra ZArith.
From Verif Require Import Num Graph GraphFacts Spec SpecFacts Circuit EvalFacts VarFacts PropertiesQuery Interval GaussInt Dist DistFacts MomentFacts CondFacts
  TreeProb PropertiesProb PropertiesDist Simplify TreeLocal SupportFacts MixFacts CircuitMoment PropertiesMoment PropertiesVariance Layout LayoutFacts LeafCond PropertiesConditional BayesNet UniformStar UniformMeasure PropertiesUniformMeasure FullyFactorized.
Import ListNotations.
Local Set Bullet Behavior "Strict Subproofs".
Local Open Scope R_scope.

(** ** Specification *)

(** The distribution function of the normal distribution with mean [m] and variance [s2]. *)
Definition normal_cdf (m s2 : R) (x : num) : R := match x with Fin r => PhiR ((r - m) / sqrt s2) | PInf => 1 | _ => 0 end.

(** What one variable contributes to the probability of a simple set: the normal measure of its intervals, the share of its symbols. *)
Definition marginal_of (domain : nat -> list Z) (mean var : nat -> R) (vk : nat * vkind) (A : evset) : R :=
  match snd vk, A with
  | VContinuous, EInt A => Rsum (map (fun i => normal_cdf (mean (fst vk)) (var (fst vk)) (hi i) - normal_cdf (mean (fst vk)) (var (fst vk)) (lo i)) A)
  | VSymbolic, ESym l => INR (length (filter (fun k => existsb (Z.eqb k) l) (domain (fst vk)))) / INR (length (domain (fst vk)))
  | _, _ => 0
  end.

(** Every variable is named once, continuous variables have a positive variance, symbolic variables have a domain. *)
Record request (domain : nat -> list Z) (vars : list (nat * vkind)) (var : nat -> R) : Prop := {
  rq_names : NoDup (map fst vars);
  rq_kinds : forall v, ~ In (v, VInteger) vars;
  rq_var : forall v, In (v, VContinuous) vars -> 0 < var v;
  rq_domain : forall v, In (v, VSymbolic) vars -> domain v <> [] /\ NoDup (domain v)
}.

Definition C71_full : Prop := forall domain vars mean var, request domain vars var -> vars <> [] ->
  exists g, fully_factorized domain vars (fun v => Some (mean v)) (fun v => Some (var v)) = Some g /\
    forall e, (forall vk, In vk vars -> asks (snd vk) (e (fst vk))) -> answers g e (Rprod (map (fun vk => marginal_of domain mean var vk (e (fst vk))) vars)).

(** ** The circuit *)
Section Circuit.
Variable domain : nat -> list Z.
Variable vars : list (nat * vkind).
Variables mean sd : nat -> R.
Hypothesis HR : request domain vars sd.

Definition leaf_of (vk : nat * vkind) : dist :=
  match snd vk with
  | VContinuous => DGauss (fst vk) (mean (fst vk)) (sd (fst vk))
  | _ => DSym (fst vk) (map (fun x => (x, 1 / INR (length (domain (fst vk))))) (domain (fst vk)))
  end.
Definition tree : pc dist := PProd (map PLeaf (map leaf_of vars)).

Lemma built : fully_factorized domain vars (fun v => Some (mean v)) (fun v => Some (sd v)) = Some (layout tree).
Proof.
  unfold fully_factorized, tree. assert (E : mapM (factor domain (fun v => Some (mean v)) (fun v => Some (sd v))) vars = Some (map leaf_of vars)); [|now rewrite E].
  destruct HR as [_ HI _ _]. clear HR. induction vars as [|[v k] l IH]; [reflexivity|]. cbn [mapM map].
  rewrite IH by (intros w Hw; apply (HI w); now right).
  destruct k; cbn [factor leaf_of fst snd]; try reflexivity. exfalso. apply (HI v). now left.
Qed.

Lemma leaves_all (P : dist -> Prop) : (forall vk, In vk vars -> P (leaf_of vk)) -> all_leaves P tree.
Proof.
  intros H. unfold tree. cbn [all_leaves]. rewrite !map_map. cbn [all_leaves]. apply fold_and_Forall. apply Forall_forall. auto.
Qed.

Lemma leaf_var vk : dvar (leaf_of vk) = fst vk.
Proof. unfold leaf_of. now destruct (snd vk). Qed.

Lemma leaf_ok vk : In vk vars -> dist_ok (leaf_of vk).
Proof.
  intros Hin. destruct vk as [v k]. unfold leaf_of. cbn [fst snd]. destruct HR as [_ HI HV HD]. destruct k; [exact (HV v Hin)| |exfalso; exact (HI v Hin)].
  destruct (HD v Hin) as [Hne Hnd]. cbn [dist_ok]. assert (Hl : 0 < INR (length (domain v))) by (destruct (domain v); [congruence|]; apply lt_0_INR; cbn; lia).
  split.
  - split.
    + unfold keys. rewrite map_map. cbn [fst]. now rewrite map_id.
    + unfold vals. rewrite map_map. cbn [snd]. apply Forall_map, Forall_forall. intros x _. left. now apply Rdiv_lt_0_compat; [lra|].
  - unfold vals. rewrite map_map. cbn [snd]. rewrite Rsum_const. field. lra.
Qed.

Lemma leaf_prob vk A : In vk vars -> asks (snd vk) A -> probR (leaf_of vk) A = marginal_of domain mean (fun v => sd v * sd v) vk A.
Proof.
  intros Hin HA. destruct vk as [v k]. unfold leaf_of, marginal_of. cbn [fst snd] in *. destruct HR as [_ HI HV HD].
  destruct k; [| |exfalso; exact (HI v Hin)].
  - destruct A as [A|l]; [|contradiction]. cbn [probR]. unfold measure. apply Rsum_ext. intros i _. unfold delta. cbn [cdfR].
    assert (E : forall x, gcdfR (mean v) (sd v) x = normal_cdf (mean v) (sd v * sd v) x); [|now rewrite !E].
    intros x. pose proof (HV v Hin). unfold gcdfR, normal_cdf. rewrite sqrt_square by lra. now destruct x.
  - destruct A as [A|l]; [contradiction|]. cbn [probR asks] in *. rewrite map_map. cbn [fst snd]. destruct (HD v Hin) as [Hne _].
    assert (Hl : 0 < INR (length (domain v))) by (destruct (domain v); [congruence|]; apply lt_0_INR; cbn; lia).
    transitivity (Rsum (map (fun x => ind (existsb (Z.eqb x) l) * (1 / INR (length (domain v)))) (domain v))).
    + apply Rsum_ext. intros x _. f_equal. f_equal. cbn [in_evset]. clear. induction l as [|k l IH]; [reflexivity|]. cbn [existsb]. rewrite IH. f_equal.
      destruct (Z.eqb_spec x k) as [->|N]; rb; auto; try (exfalso; lra). exfalso. apply N. apply eq_IZR. congruence.
    + set (n := INR (length (domain v))) in *. clearbody n. generalize (domain v). intros d. induction d as [|x d IH]; [cbn; field; lra|]. cbn [map Rsum fold_right filter]. change (fold_right Rplus 0 ?l) with (Rsum l). rewrite IH.
      destruct (existsb (Z.eqb x) l); cbn [ind length]; [rewrite S_INR|]; field; lra.
Qed.

Lemma leaf_asks vk A : In vk vars -> asks (snd vk) A -> evset_ok (leaf_of vk) A.
Proof.
  intros Hin HA. destruct vk as [v k]. unfold leaf_of. cbn [fst snd] in *. destruct k, A; cbn in *; try contradiction; auto. exfalso. exact (rq_kinds _ _ _ HR v Hin).
Qed.

Lemma tree_layered : layered_circuit (layout tree) tree.
Proof. apply layout_layered. unfold tree. cbn [sums_nonempty]. rewrite !map_map. cbn [sums_nonempty]. apply Forall_map. apply Forall_forall. intros. exact I. Qed.

Hypothesis Hne : vars <> [].

Lemma tree_normalised : normalised tree.
Proof. unfold normalised, tree. clear. induction vars as [|vk l IH]; [exact I|]. split; [exact I|exact IH]. Qed.

Lemma tree_smooth : smooth dist_vars tree.
Proof. unfold tree. clear. induction vars as [|vk l IH]; [exact I|]. split; [exact I|exact IH]. Qed.

Lemma tree_products : products_nonempty tree.
Proof.
  unfold tree. cbn [products_nonempty]. split; [destruct vars; [congruence|discriminate]|]. clear. induction vars as [|vk l IH]; [exact I|]. split; [exact I|exact IH].
Qed.

Lemma tree_mentions v : mentions dist_vars tree v <-> In v (map fst vars).
Proof.
  unfold tree. cbn [mentions]. rewrite !map_map. cbn [mentions]. clear HR Hne. induction vars as [|vk l IH]; [cbn; tauto|]. cbn [map fold_right In]. rewrite IH.
  unfold dist_vars at 1. rewrite leaf_var. cbn. tauto.
Qed.

Lemma tree_mix vk : In vk vars -> mix (fst vk) tree = [(1, leaf_of vk)].
Proof.
  intros Hin. unfold tree. cbn [mix]. destruct HR as [HN _ _ _]. clear HR Hne. induction vars as [|wk l IH]; [contradiction|]. cbn [map flat_map mix]. rewrite leaf_var.
  inversion HN as [|? ? N1 N2]; subst. destruct (Nat.eqb_spec (fst wk) (fst vk)) as [E|E].
  - assert (wk = vk) as -> by (destruct Hin as [->|Hin]; [reflexivity|]; exfalso; apply N1; rewrite E; now apply in_map).
    assert (flat_map (mix (fst vk)) (map PLeaf (map leaf_of l)) = []) as ->; [|reflexivity].
    clear - N1. induction l as [|uk l IH]; [reflexivity|]. cbn [map flat_map mix]. rewrite leaf_var. destruct (Nat.eqb_spec (fst uk) (fst vk)) as [E|E].
    + exfalso. apply N1. rewrite <- E. now left.
    + apply IH. intros H. apply N1. now right.
  - cbn [app]. apply IH; auto. destruct Hin as [->|Hin]; [congruence|exact Hin].
Qed.
End Circuit.

(** ** C71 *)

(** Proved part: for all inputs, the given variances act as standard deviations: the variables are independent, symbolic variables
    are uniform and continuous variables are normal with the given mean and the square of the given variance. *)
Theorem C71_factorized_partial domain vars mean sd : request domain vars sd -> vars <> [] ->
  exists g, fully_factorized domain vars (fun v => Some (mean v)) (fun v => Some (sd v)) = Some g /\
    forall e, (forall vk, In vk vars -> asks (snd vk) (e (fst vk))) -> answers g e (Rprod (map (fun vk => marginal_of domain mean (fun v => sd v * sd v) vk (e (fst vk))) vars)).
Proof.
  intros HR Hne. exists (layout (tree domain vars mean sd)). split; [now apply built|]. intros e He.
  assert (E : semR (fun d => probR d (e (dvar d))) (tree domain vars mean sd) = Rprod (map (fun vk => marginal_of domain mean (fun v => sd v * sd v) vk (e (fst vk))) vars)).
  { unfold tree. cbn [semR]. rewrite !map_map. cbn [semR]. f_equal. apply map_ext_in. intros vk Hvk. rewrite leaf_var. apply leaf_prob with (vars := vars); auto. }
  rewrite <- E. apply answers_semR.
  - apply tree_layered.
  - apply normalised_lw_ok, tree_normalised.
  - apply leaves_all. intros vk Hvk. now apply leaf_ok with (vars := vars).
  - apply leaves_all. intros vk Hvk. rewrite leaf_var. apply leaf_asks with (vars := vars); auto.
Qed.

(** The full claim for variances that are one. *)
Theorem C71_standard_partial domain vars mean var : request domain vars var -> vars <> [] -> (forall v, In (v, VContinuous) vars -> var v = 1) ->
  exists g, fully_factorized domain vars (fun v => Some (mean v)) (fun v => Some (var v)) = Some g /\
    forall e, (forall vk, In vk vars -> asks (snd vk) (e (fst vk))) -> answers g e (Rprod (map (fun vk => marginal_of domain mean var vk (e (fst vk))) vars)).
Proof.
  intros HR Hne H1. destruct (C71_factorized_partial domain vars mean var HR Hne) as (g & E & A). exists g. split; [exact E|]. intros e He.
  assert (X : map (fun vk => marginal_of domain mean var vk (e (fst vk))) vars = map (fun vk => marginal_of domain mean (fun v => var v * var v) vk (e (fst vk))) vars); [|rewrite X; now apply A].
  apply map_ext_in. intros [v k] Hv. unfold marginal_of. cbn [fst snd]. destruct k; auto. rewrite (H1 v Hv). now rewrite Rmult_1_l.
Qed.

(** The moments that the circuit answers, if all variables are continuous: the given means, the squares of the given variances. *)
Theorem C71_moments vars mean sd domain : request domain vars sd -> vars <> [] -> (forall vk, In vk vars -> snd vk = VContinuous) ->
  exists g, fully_factorized domain vars (fun v => Some (mean v)) (fun v => Some (sd v)) = Some g /\
    (forall st, exists res st', expectation (fun _ => false) g st = Some (res, st') /\ (forall v, In v (map fst res) <-> In v (map fst vars)) /\
       forall v m, In (v, m) res -> m = Fin (mean v)) /\
    (forall st, exists res st', variance (fun _ => false) g st = Some (res, st') /\ (forall v, In v (map fst res) <-> In v (map fst vars)) /\
       forall v m, In (v, m) res -> m = Fin (sd v * sd v)).
Proof.
  intros HR Hne Hc. exists (layout (tree domain vars mean sd)). split; [now apply built|]. set (t := tree domain vars mean sd).
  assert (Hnum : all_leaves numeric t).
  { apply leaves_all. intros vk Hvk. unfold leaf_of. rewrite (Hc vk Hvk). exact I. }
  assert (Hok : all_leaves dist_ok t) by (apply leaves_all; intros vk Hvk; now apply leaf_ok with (vars := vars)).
  assert (Hmix : forall v, In v (map fst vars) -> mix v t = [(1, DGauss v (mean v) (sd v))]).
  { intros v Hv. apply in_map_iff in Hv as (vk & <- & Hvk). unfold t. rewrite tree_mix by auto. unfold leaf_of. now rewrite (Hc vk Hvk). }
  assert (Hmean : forall v, In v (map fst vars) -> msum (fun d => true_moment d 1 0) (mix v t) = mean v).
  { intros v Hv. rewrite Hmix by auto. unfold msum, Rsum. cbn [map fold_right fst snd true_moment moment1]. rewrite gauss_moment_binom. unfold binom. cbn. lra. }
  split; intros st.
  - assert (Hl : layered_circuit (layout t) t) by apply tree_layered. assert (Hl' := Hl). destruct Hl' as (Hwf & Hlt & r & Hr & Hg & Hu).
    destruct (circuit_variables_spec dist_vars (layout t) r t Hr Hu (tree_smooth _ _ _ _)) as (vs & Hv1 & Hv2 & Hv3).
    unfold expectation. rewrite Hv1. unfold numeric_variables. cbn [negb].
    replace (filter (fun _ => true) vs) with vs by (clear; induction vs; simpl; congruence).
    destruct (circuit_moment_mix (layout t) t (vmap_const vs 1%nat) (vmap_const vs 0) (fun d => true_moment d 1 0) st Hl) as (res & st' & R1 & R2 & R3 & R4).
    + apply tree_normalised.
    + apply tree_smooth.
    + now apply tree_products.
    + eapply all_leaves_impl; [|apply (all_leaves_and _ _ _ (all_leaves_mentions dist_vars t) (all_leaves_and _ _ _ Hok Hnum))]. simpl. intros d (H1 & H2 & H3). exists 1%nat, 0.
      assert (Hd : existsb (Nat.eqb (dvar d)) vs = true) by (apply existsb_exists; exists (dvar d); split; [apply Hv3, H1; now left|apply Nat.eqb_refl]).
      unfold vmap_const. rewrite Hd. split; [reflexivity|]. split; [reflexivity|]. unfold true_moment. destruct (moment1_defined d 1 0 H2 H3) as (m & E). rewrite E.
      destruct d; try reflexivity. simpl in *. rewrite <- E. f_equal. ring.
    + exists res, st'. split; [exact R1|]. split; [intros v; rewrite R2; apply tree_mentions|]. intros v m Hin. rewrite (R4 v m Hin). f_equal. apply Hmean.
      apply (tree_mentions domain vars mean sd), R2. now apply (in_map fst) in Hin.
  - destruct (variance_answer (layout t) t st) as (res & st' & R1 & R2 & R3 & R4); auto.
    + apply tree_layered.
    + apply tree_normalised.
    + apply tree_smooth.
    + now apply tree_products.
    + exists res, st'. split; [exact R1|]. split; [intros v; rewrite R2; apply tree_mentions|]. intros v m Hin. rewrite (R4 v m Hin). f_equal.
      assert (Hv : In v (map fst vars)) by (apply (tree_mentions domain vars mean sd), R2; now apply (in_map fst) in Hin).
      unfold answered. rewrite Hmix by auto. unfold msum, Rsum. cbn [map fold_right fst snd moment1 dvar]. unfold mean_of. rewrite Hmean by auto.
      rewrite gauss_moment_binom. unfold binom. cbn. lra.
Qed.

(** Integers are refused. *)
Theorem C71_integer_refused domain vars means variances v : In (v, VInteger) vars -> fully_factorized domain vars means variances = None.
Proof.
  intros H. unfold fully_factorized. assert (E : mapM (factor domain means variances) vars = None); [|now rewrite E].
  induction vars as [|wk l IH]; [contradiction|]. cbn [mapM]. destruct H as [->|H]; [reflexivity|]. rewrite IH by auto. now destruct (factor domain means variances wk).
Qed.

(** A variance of four: the standard deviation is four instead of two. *)
Theorem C71_factorized_refuted : ~ C71_full.
Proof.
  intros H. set (vars := [(0%nat, VContinuous)]). assert (HR : request (fun _ => []) vars (fun _ => 4)).
  { constructor; [repeat constructor; cbn; tauto|intros v [X|[]]; discriminate|intros; lra|intros v [X|[]]; discriminate]. }
  destruct (H (fun _ => []) vars (fun _ => 0) (fun _ => 4) HR ltac:(discriminate)) as (g & E & A).
  destruct (C71_factorized_partial (fun _ => []) vars (fun _ => 0) (fun _ => 4) HR ltac:(discriminate)) as (g' & E' & A'). rewrite E in E'. injection E' as <-.
  set (e := (fun _ => EInt [iclosed 0 2]) : sevent).
  assert (He : forall vk, In vk vars -> asks (snd vk) (e (fst vk))).
  { intros vk [<-|[]]. split; [apply interval_one; bounds|discriminate]. }
  pose proof (answers_unique _ _ _ _ (A e He) (A' e He)) as X. unfold vars, e, marginal_of in X. cbn [map Rprod fold_right Rsum fst snd] in X. unfold normal_cdf, iclosed in X. cbn [lo hi] in X.
  assert (S4 : sqrt 4 = 2) by (replace 4 with (2 * 2) by ring; apply sqrt_square; lra). assert (S16 : sqrt (4 * 4) = 4) by (apply sqrt_square; lra). rewrite S4, S16 in X.
  replace ((2 - 0) / 2) with 1 in X by field. replace ((2 - 0) / 4) with (1/2) in X by field. replace ((0 - 0) / 2) with 0 in X by field. replace ((0 - 0) / 4) with 0 in X by field.
  pose proof (PhiR_strict (1/2) 1 ltac:(lra)). lra.
Qed.

(** Two variables: a normal distribution with mean 1 and a fair coin; half of the mass below the mean, half of it heads. *)
Example C71_case : exists g, fully_factorized (fun _ => [0%Z; 1%Z]) [(0%nat, VContinuous); (1%nat, VSymbolic)] (fun _ => Some 1) (fun _ => Some 1) = Some g /\
  answers g (fun v => match v with 0%nat => EInt [mkSint NInf (Fin 1) false true] | _ => ESym [1%Z] end) (1/4).
Proof.
  assert (HR : request (fun _ => [0%Z; 1%Z]) [(0%nat, VContinuous); (1%nat, VSymbolic)] (fun _ => 1)).
  { constructor.
    - repeat constructor; cbn; intuition lia.
    - intros v [X|[X|[]]]; discriminate.
    - intros; lra.
    - intros v _. split; [discriminate|]. repeat constructor; cbn; intuition lia. }
  destruct (C71_standard_partial _ _ (fun _ => 1) _ HR ltac:(discriminate) ltac:(auto)) as (g & E & A). exists g. split; [exact E|].
  set (e := (fun v => match v with 0%nat => EInt [mkSint NInf (Fin 1) false true] | _ => ESym [1%Z] end) : sevent).
  replace (1/4) with (Rprod (map (fun vk => marginal_of (fun _ => [0%Z; 1%Z]) (fun _ => 1) (fun _ => 1) vk (e (fst vk))) [(0%nat, VContinuous); (1%nat, VSymbolic)])).
  - apply A. intros vk [<-|[<-|[]]]; cbn [fst snd e asks].
    + split; [apply interval_one; bounds|discriminate].
    + repeat constructor; cbn; tauto.
  - unfold e, marginal_of. cbn [map fst snd Rsum Rprod fold_right filter existsb Z.eqb Pos.eqb orb length hi lo]. unfold normal_cdf.
    replace ((1 - 1) / sqrt 1) with 0 by (rewrite sqrt_1; field). assert (PhiR 0 = / 2) as ->; [|cbn; lra].
    rewrite PhiR_gI. replace (0 / sqrt 2) with 0 by (unfold Rdiv; ring). rewrite gI_0. unfold Rdiv. ring.
Qed.

Print Assumptions C71_factorized_partial.
Print Assumptions C71_standard_partial.
Print Assumptions C71_moments.
Print Assumptions C71_integer_refused.
Print Assumptions C71_factorized_refuted.
