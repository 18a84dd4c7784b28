(** * L1Step: mixtures of uniform boxes as step functions *)
From Coq Require Import List Arith Bool Lia Reals Lra ZArith Permutation.
From Verif Require Import Num Graph GraphFacts Spec SpecFacts Circuit EvalFacts VarFacts Interval GaussInt Dist DistFacts TreeProb TreeLocal LeafCond
  CondFacts MixtureFacts MultinomialFacts Support SupportFacts ModeFacts L1 L1Events StepFun PropertiesUniformMeasure PropertiesForward.
Import ListNotations.
Local Set Bullet Behavior "Strict Subproofs".
Local Open Scope R_scope.

(** A component: the log weight of a product and its leaves. *)
Definition comp : Type := num * list dist.
Definition product (c : comp) : pc dist := PProd (map PLeaf (snd c)).
Definition mixture (cs : list comp) : pc dist := PSum (map (fun c => (fst c, product c)) cs).

Definition uniform (d : dist) : Prop := exists v i, d = DUnif v i.

(** One uniform leaf for every variable. *)
Definition comp_ok (vs : list nat) (c : comp) : Prop :=
  lw_ok (fst c) /\ Forall (fun d => dist_ok d /\ uniform d) (snd c) /\ NoDup (map dvar (snd c)) /\ (forall v, In v (map dvar (snd c)) <-> In v vs).

Definition side (d : dist) : sint := match d with DUnif _ i => i | _ => ireals end.
Definition width (d : dist) : R := match lo (side d), hi (side d) with Fin a, Fin b => b - a | _, _ => 0 end.
Definition volume (c : comp) : R := Rprod (map width (snd c)).
Definition in_comp (c : comp) (x : nat -> R) : bool := forallb (fun d => in_sint (side d) (x (dvar d))) (snd c).
Definition hgt (c : comp) : R := wexp (fst c) / volume c.

Lemma uniform_side d : dist_ok d -> uniform d -> exists v i a b, d = DUnif v i /\ lo i = Fin a /\ hi i = Fin b /\ a < b /\ side d = i /\ width d = b - a.
Proof.
  intros Hok (v & i & ->). destruct Hok as (a & b & H1 & H2 & H3). exists v, i, a, b. do 4 (split; [auto; fail|]). split; [reflexivity|]. unfold width. cbn [side]. now rewrite H1, H2.
Qed.

Lemma side_ok d : dist_ok d -> uniform d -> sint_ok (side d).
Proof.
  intros H1 H2. destruct (uniform_side d H1 H2) as (v & i & a & b & -> & E1 & E2 & Hab & -> & _). unfold sint_ok. rewrite E1, E2.
  repeat (split; [discriminate|]). left. exact Hab.
Qed.

Lemma width_pos d : dist_ok d -> uniform d -> 0 < width d.
Proof. intros H1 H2. destruct (uniform_side d H1 H2) as (v & i & a & b & _ & _ & _ & Hab & _ & ->). lra. Qed.

Lemma volume_pos vs c : comp_ok vs c -> 0 < volume c.
Proof.
  intros (_ & Hd & _). apply Rprod_pos. apply Forall_map. eapply Forall_impl; [|exact Hd]. intros d [H1 H2]. now apply width_pos.
Qed.

Lemma hgt_nonneg vs c : comp_ok vs c -> 0 <= hgt c.
Proof. intros H. apply Rmult_le_pos; [apply wexp_nonneg|]. left. apply Rinv_0_lt_compat. now apply (volume_pos vs). Qed.

Lemma uniform_density d x : dist_ok d -> uniform d -> density d x = ind (in_sint (side d) x) / width d.
Proof.
  intros H1 H2. destruct (uniform_side d H1 H2) as (v & i & a & b & -> & E1 & E2 & Hab & Es & ->). rewrite Es. unfold density. cbn [ll1].
  destruct (in_sint i x); cbn [ind]; [|cbn; unfold Rdiv; ring]. rewrite E1, E2. cbn [nsub nopp nadd]. unfold nlog.
  replace (b + - a) with (b - a) by ring. destruct (total_order_T (b - a) 0) as [[H|H]|H]; try lra. cbn [nopp nexp]. rewrite exp_Ropp, exp_ln by lra. unfold Rdiv. ring.
Qed.

Lemma in_comp_prod c x : Rprod (map (fun d => ind (in_sint (side d) (x (dvar d)))) (snd c)) = ind (in_comp c x).
Proof. apply Rprod_ind. Qed.

Lemma product_density vs c x : comp_ok vs c -> semR (fun d => density d (x (dvar d))) (product c) = ind (in_comp c x) / volume c.
Proof.
  intros (_ & Hd & _). unfold product. cbn [semR]. rewrite map_map. cbn [semR]. rewrite <- in_comp_prod. unfold volume. rewrite <- Rprod_div.
  - apply Rprod_ext. intros d Hin. rewrite Forall_forall in Hd. now apply uniform_density; apply Hd.
  - intros d Hin. rewrite Forall_forall in Hd. destruct (Hd d Hin) as [H1 H2]. pose proof (width_pos d H1 H2). lra.
Qed.

Definition height_at (cs : list comp) (x : nat -> R) : R := Rsum (map (fun c => hgt c * ind (in_comp c x)) cs).

Lemma mixture_density vs cs x : Forall (comp_ok vs) cs -> likR (mixture cs) x = height_at cs x.
Proof.
  intros H. unfold likR, mixture, height_at. cbn [semR]. rewrite map_map. cbn [fst snd]. apply Rsum_ext. intros c Hc. rewrite Forall_forall in H.
  rewrite (product_density vs) by auto. unfold hgt, Rdiv. ring.
Qed.

(** ** The length of a set of reals between [-M] and [M] *)
Definition clamp (M : R) (x : num) : R := 2 * M * cdfR (DUnif 0%nat (iclosed (- M) M)) x.

Lemma clamp_dist M : 0 < M -> dist_ok (DUnif 0%nat (iclosed (- M) M)).
Proof. intros H. exists (- M), M. split; [reflexivity|split; [reflexivity|lra]]. Qed.

Lemma clamp_in M r : 0 < M -> - M <= r <= M -> clamp M (Fin r) = r + M.
Proof. intros HM Hr. unfold clamp. rewrite (unif_cdf_in 0%nat (iclosed (- M) M) (- M) M r); [field; lra|reflexivity|reflexivity|lra|exact Hr]. Qed.

Lemma clamp_mono M : 0 < M -> mono (clamp M).
Proof.
  intros HM x y Hxy. unfold clamp. apply Rmult_le_compat_l; [lra|]. now apply cdfR_mono; [apply clamp_dist|].
Qed.

Lemma measure_scale k F A : measure (fun x => k * F x) A = k * measure F A.
Proof. unfold measure. rewrite <- Rsum_scal. apply Rsum_ext. intros i _. unfold delta. ring. Qed.

Definition within (M : R) (d : dist) : Prop := forall a b, lo (side d) = Fin a -> hi (side d) = Fin b -> - M <= a /\ b <= M.

Lemma uniform_probability M d A : 0 < M -> dist_ok d -> uniform d -> within M d -> interval_ok A ->
  probR d (EInt A) = measure (clamp M) (interval_inter [side d] A) / width d.
Proof.
  intros HM H1 H2 HW HA. destruct (uniform_side d H1 H2) as (v & i & a & b & -> & E1 & E2 & Hab & Es & ->). unfold within in HW. rewrite Es in *. cbn [probR].
  destruct (HW a b E1 E2) as [W1 W2].
  pose proof (unif_restricts 0%nat (iclosed (- M) M) i (- M) M a b eq_refl eq_refl ltac:(lra) E1 E2 Hab W1 W2) as HR.
  assert (Hi : sint_ok i) by (rewrite <- Es; now apply side_ok).
  change (cdfR (DUnif v i)) with (cdfR (DUnif 0%nat i)). erewrite (measure_cond _ _ i _ A (interval_inter [i] A) Hi HR HA).
  - unfold clamp. rewrite measure_scale. rewrite E1, E2. rewrite !(unif_cdf_in 0%nat (iclosed (- M) M) (- M) M); try reflexivity; try lra.
    field. split; lra.
  - now apply inter_ok.
  - intros x. rewrite in_interval_inter; [|constructor; [exact Hi|constructor]|apply HA]. cbn [in_interval existsb]. rewrite orb_false_r. apply andb_comm.
Qed.

Lemma side_measure M d : 0 < M -> dist_ok d -> uniform d -> within M d -> measure (clamp M) [side d] = width d.
Proof.
  intros HM H1 H2 HW. destruct (uniform_side d H1 H2) as (v & i & a & b & -> & E1 & E2 & Hab & Es & ->). unfold within in HW. rewrite Es in *.
  destruct (HW a b E1 E2) as [W1 W2]. unfold measure, delta. cbn [map Rsum fold_right]. rewrite E1, E2, !clamp_in by lra. unfold Rsum. cbn. ring.
Qed.

(** ** Components as boxes over the variables *)
Definition cside (c : comp) (v : nat) : sint := match find (fun d => (dvar d =? v)%nat) (snd c) with Some d => side d | None => ireals end.

Lemma cside_leaf c d : NoDup (map dvar (snd c)) -> In d (snd c) -> cside c (dvar d) = side d.
Proof.
  unfold cside. induction (snd c) as [|d' l IH]; intros Nd Hd; [destruct Hd|]. cbn [find]. inversion Nd as [|? ? N1 N2]; subst.
  destruct (Nat.eqb_spec (dvar d') (dvar d)) as [E|N].
  - destruct Hd as [->|Hd]; [reflexivity|]. exfalso. apply N1. rewrite E. now apply in_map.
  - destruct Hd as [->|Hd]; [congruence|]. now apply IH.
Qed.

Lemma cside_ok vs c v : comp_ok vs c -> In v vs -> sint_ok (cside c v).
Proof.
  intros (_ & Hd & Nd & Hv) H. apply Hv in H. apply in_map_iff in H as (d & <- & H). rewrite cside_leaf by auto. rewrite Forall_forall in Hd.
  now apply side_ok; apply Hd.
Qed.

Lemma comp_perm vs c : comp_ok vs c -> NoDup vs -> Permutation (map dvar (snd c)) vs.
Proof. intros (_ & _ & Nd & Hv) N. now apply NoDup_Permutation. Qed.

Lemma over_leaves vs c (f : nat -> R) : comp_ok vs c -> NoDup vs -> Rprod (map (fun d => f (dvar d)) (snd c)) = Rprod (map f vs).
Proof. intros H N. rewrite <- (map_map dvar f). apply Rprod_perm, Permutation_map. now apply comp_perm. Qed.

Lemma in_comp_vars vs c x : comp_ok vs c -> NoDup vs -> Rprod (map (fun v => ind (in_sint (cside c v) (x v))) vs) = ind (in_comp c x).
Proof.
  intros H N. rewrite <- in_comp_prod, <- (over_leaves vs c) by auto. apply Rprod_ext. intros d Hd. rewrite cside_leaf; [reflexivity|apply H|exact Hd].
Qed.

(** ** Events as lists of simple events *)
Definition reals_of (A : evset) : interval := match A with EInt A => A | ESym _ => [] end.
Definition real_simple (vs : list nat) (e : sevent) : Prop := forall v, In v vs -> real_set (e v).
Definition in_simple (vs : list nat) (e : sevent) (x : nat -> R) : bool := forallb (fun v => in_evset (e v) (x v)) vs.

Definition mass (cs : list comp) (e : sevent) : R := semR (fun d => probR d (e (dvar d))) (mixture cs).

Definition cut (e : sevent) (c : comp) (v : nat) : interval := interval_inter [cside c v] (reals_of (e v)).

Lemma mass_over M vs cs e : 0 < M -> NoDup vs -> Forall (comp_ok vs) cs -> Forall (fun c => Forall (within M) (snd c)) cs -> real_simple vs e ->
  mass cs e = Rsum (map (fun c => hgt c * Rprod (map (fun v => measure (clamp M) (cut e c v)) vs)) cs).
Proof.
  intros HM Nd Hc HW He. unfold mass, mixture. cbn [semR]. rewrite map_map. cbn [fst snd]. apply Rsum_ext. intros c Hin. rewrite Forall_forall in Hc, HW.
  specialize (Hc c Hin). specialize (HW c Hin). unfold product. cbn [semR]. rewrite map_map. cbn [semR].
  assert (E : Rprod (map (fun d => probR d (e (dvar d))) (snd c)) = Rprod (map (fun v => measure (clamp M) (cut e c v)) vs) / volume c).
  { rewrite <- (over_leaves vs c) by auto. unfold volume. pose proof Hc as (_ & Hd & Nc & Hv). rewrite Forall_forall in Hd, HW. rewrite <- Rprod_div.
    - apply Rprod_ext. intros d Hd'. destruct (Hd d Hd') as [H1 H2]. assert (Hv' : In (dvar d) vs) by (apply Hv; now apply in_map).
      destruct (He _ Hv') as (A & EA & HA). rewrite EA. unfold cut. rewrite EA, cside_leaf by auto. cbn [reals_of]. now apply uniform_probability; auto.
    - intros d Hd'. destruct (Hd d Hd') as [H1 H2]. pose proof (width_pos d H1 H2). lra. }
  rewrite E. unfold hgt, Rdiv. ring.
Qed.

Definition times (vs : list nat) (E : list sevent) (x : nat -> R) : R := Rsum (map (fun e => ind (in_simple vs e x)) E).
Definition total_mass (cs : list comp) (E : list sevent) : R := Rsum (map (mass cs) E).

(** The step function that is [k] times the density on [E]. *)
Definition steps (k : R) (cs : list comp) (E : list sevent) : list term := flat_map (fun e => map (fun c => (k * hgt c, cut e c)) cs) E.

Lemma steps_ok k vs cs E : Forall (comp_ok vs) cs -> Forall (real_simple vs) E -> forall T v, In T (steps k cs E) -> In v vs -> interval_ok (snd T v).
Proof.
  intros Hc HE T v HT Hv. apply in_flat_map in HT as (e & He & HT). apply in_map_iff in HT as (c & <- & Hin). cbn [snd]. rewrite Forall_forall in Hc, HE.
  destruct (HE e He v Hv) as (A & EA & HA). unfold cut. rewrite EA. apply inter_ok; [apply (cside_ok vs); auto|exact HA].
Qed.

Lemma cut_point vs cs e c x : NoDup vs -> Forall (comp_ok vs) cs -> In c cs -> real_simple vs e ->
  Rprod (map (fun v => ind (in_interval (cut e c v) (x v))) vs) = ind (in_comp c x) * ind (in_simple vs e x).
Proof.
  intros Nd Hc Hin He. rewrite Forall_forall in Hc. specialize (Hc c Hin).
  rewrite <- (in_comp_vars vs) by auto. unfold in_simple. rewrite !Rprod_ind. rewrite <- (Rprod_ind (fun v => in_sint (cside c v) (x v))).
  rewrite Rprod_ind.
  assert (E : forallb (fun v => in_interval (cut e c v) (x v)) vs = forallb (fun v => in_sint (cside c v) (x v)) vs && forallb (fun v => in_evset (e v) (x v)) vs).
  { assert (K : forall v, In v vs -> in_interval (cut e c v) (x v) = in_sint (cside c v) (x v) && in_evset (e v) (x v)).
    { intros v Hv. destruct (He v Hv) as (A & EA & HA). unfold cut. rewrite EA. cbn [reals_of in_evset].
      rewrite in_interval_inter; [|constructor; [now apply (cside_ok vs)|constructor]|apply HA]. cbn [in_interval existsb]. now rewrite orb_false_r. }
    clear -K. induction vs as [|v vs IH]; [reflexivity|]. cbn [forallb]. rewrite K by now left. rewrite IH by (intros w Hw; apply K; now right).
    destruct (in_sint (cside c v) (x v)), (in_evset (e v) (x v)), (forallb (fun v => in_sint (cside c v) (x v)) vs); reflexivity. }
  rewrite E. destruct (forallb (fun v => in_sint (cside c v) (x v)) vs), (forallb (fun v => in_evset (e v) (x v)) vs); cbn; lra.
Qed.

Lemma steps_point k vs cs E x : NoDup vs -> Forall (comp_ok vs) cs -> Forall (real_simple vs) E ->
  Rsum (map (at_point vs x) (steps k cs E)) = k * (times vs E x * height_at cs x).
Proof.
  intros Nd Hc HE. unfold steps. rewrite Rsum_flat_map. unfold times. rewrite Rmult_comm with (r1 := Rsum _) (r2 := height_at _ _). rewrite <- Rsum_scal, <- Rsum_scal. apply Rsum_ext. intros e He.
  rewrite map_map. unfold height_at. rewrite Rmult_comm with (r2 := ind _), <- Rmult_assoc, <- Rsum_scal. apply Rsum_ext. intros c Hin. unfold at_point. cbn [fst snd].
  rewrite Forall_forall in HE. rewrite (cut_point vs cs) by auto. ring.
Qed.

Lemma steps_over M k vs cs E : 0 < M -> NoDup vs -> Forall (comp_ok vs) cs -> Forall (fun c => Forall (within M) (snd c)) cs -> Forall (real_simple vs) E ->
  Rsum (map (over (clamp M) vs) (steps k cs E)) = k * total_mass cs E.
Proof.
  intros HM Nd Hc HW HE. unfold steps. rewrite Rsum_flat_map. unfold total_mass. rewrite <- Rsum_scal. apply Rsum_ext. intros e He. rewrite Forall_forall in HE.
  rewrite map_map, (mass_over M vs) by auto. rewrite <- Rsum_scal. apply Rsum_ext. intros c Hin. unfold over. cbn [fst snd]. ring.
Qed.

Definition whole (k : R) (cs : list comp) : list term := map (fun c => (k, fun v => [cside c v])) cs.

Lemma within_exists l : exists M, 0 < M /\ Forall (within M) l.
Proof.
  induction l as [|d l (M & HM & IH)]; [exists 1; split; [lra|constructor]|].
  set (a := match lo (side d) with Fin a => Rabs a | _ => 0 end). set (b := match hi (side d) with Fin b => Rabs b | _ => 0 end).
  assert (Ha : 0 <= a) by (unfold a; destruct (lo (side d)); try lra; apply Rabs_pos). assert (Hb : 0 <= b) by (unfold b; destruct (hi (side d)); try lra; apply Rabs_pos).
  exists (M + a + b). split; [lra|]. constructor.
  - intros u w Eu Ew. unfold a, b in *. rewrite Eu, Ew in *. pose proof (Rle_abs w). pose proof (Rle_abs (- u)). rewrite Rabs_Ropp in *. lra.
  - eapply Forall_impl; [|exact IH]. intros d' H u w Eu Ew. destruct (H u w Eu Ew). lra.
Qed.

Lemma within_comps cs : exists M, 0 < M /\ forall M', M <= M' -> Forall (fun c : comp => Forall (within M') (snd c)) cs.
Proof.
  destruct (within_exists (flat_map snd cs)) as (M & HM & H). exists M. split; [exact HM|]. intros M' HM'. apply Forall_forall. intros c Hc. apply Forall_forall. intros d Hd.
  rewrite Forall_forall in H. intros a b Ea Eb. destruct (H d ltac:(apply in_flat_map; eauto) a b Ea Eb). lra.
Qed.

(** Two mixtures, two events. *)
Lemma compare_events vs cs ds E A tol : NoDup vs -> Forall (comp_ok vs) cs -> Forall (comp_ok vs) ds -> Forall (real_simple vs) E -> Forall (real_simple vs) A ->
  (forall x, 0 <= (times vs E x - times vs A x) * (height_at cs x - height_at ds x) + tol * Rsum (map (fun c => ind (in_comp c x)) cs)) ->
  total_mass cs A - total_mass ds A <= total_mass cs E - total_mass ds E + tol * Rsum (map volume cs).
Proof.
  intros Nd Hc Hd HE HA Pos. destruct (within_comps cs) as (M1 & HM1 & W1). destruct (within_comps ds) as (M2 & HM2 & W2). set (M := Rmax M1 M2).
  assert (HM : 0 < M) by (unfold M; pose proof (Rmax_l M1 M2); lra). assert (Wc := W1 M (Rmax_l _ _)). assert (Wd := W2 M (Rmax_r _ _)).
  assert (K : 0 <= Rsum (map (over (clamp M) vs) (steps 1 cs E ++ steps (-1) ds E ++ steps (-1) cs A ++ steps 1 ds A ++ whole tol cs))).
  { apply step_positive; [now apply clamp_mono|exact Nd| |].
    - intros T v HT Hv. rewrite !in_app_iff in HT. destruct HT as [HT|[HT|[HT|[HT|HT]]]]; [eapply (steps_ok _ vs); [exact Hc|exact HE|exact HT|exact Hv]|eapply (steps_ok _ vs); [exact Hd|exact HE|exact HT|exact Hv]|
        eapply (steps_ok _ vs); [exact Hc|exact HA|exact HT|exact Hv]|eapply (steps_ok _ vs); [exact Hd|exact HA|exact HT|exact Hv]|].
      apply in_map_iff in HT as (c & <- & Hin). cbn [snd]. rewrite Forall_forall in Hc. split; [constructor; [apply (cside_ok vs); auto|constructor]|cbn; tauto].
    - intros x. rewrite !map_app, !Rsum_app, !(steps_point _ vs) by auto.
      assert (Ew : Rsum (map (at_point vs x) (whole tol cs)) = tol * Rsum (map (fun c => ind (in_comp c x)) cs)).
      { unfold whole. rewrite map_map, <- Rsum_scal. apply Rsum_ext. intros c Hin. unfold at_point. cbn [fst snd]. f_equal. rewrite Forall_forall in Hc.
        rewrite <- (in_comp_vars vs) by auto. apply Rprod_ext. intros v _. cbn [in_interval existsb]. now rewrite orb_false_r. }
      rewrite Ew. specialize (Pos x). lra. }
  rewrite !map_app, !Rsum_app, !(steps_over M _ vs) in K by auto.
  assert (Ew : Rsum (map (over (clamp M) vs) (whole tol cs)) = tol * Rsum (map volume cs)).
  { unfold whole. rewrite map_map, <- Rsum_scal. apply Rsum_ext. intros c Hin. unfold over. cbn [fst snd]. f_equal. rewrite Forall_forall in Hc, Wc. specialize (Wc c Hin).
    rewrite <- (over_leaves vs c) by auto. unfold volume. apply Rprod_ext. intros d Hd'. pose proof (Hc c Hin) as (_ & Hdd & Nc & _). rewrite cside_leaf by auto.
    rewrite Forall_forall in Hdd, Wc. destruct (Hdd d Hd'). now apply side_measure; auto. }
  rewrite Ew in K. lra.
Qed.
