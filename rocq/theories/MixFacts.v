(** * MixFacts: the one-variable marginals of a circuit are mixtures of leaves; the moment pass computes mixtures of leaf moments *)
From Coq Require Import List Arith Bool Lia Reals Lra ZArith Sorting.Sorted.
From Verif Require Import Num Graph GraphFacts Spec SpecFacts Circuit EvalFacts VarFacts Interval Dist DistFacts TreeProb
  LeafCond Support SupportFacts CircuitMoment.
Import ListNotations.
Local Open Scope R_scope.

(** The leaves about variable [v] with their weights. *)
Fixpoint mix (v : nat) (t : pc dist) : list (R * dist) :=
  match t with
  | PLeaf d => if (dvar d =? v)%nat then [(1, d)] else []
  | PSum l => flat_map (fun wt => map (fun p => (wexp (fst wt) * fst p, snd p)) (mix v (snd wt))) l
  | PProd l => flat_map (mix v) l
  end.

Definition msum (F : dist -> R) (l : list (R * dist)) : R := Rsum (map (fun p => fst p * F (snd p)) l).

Lemma msum_app F a b : msum F (a ++ b) = msum F a + msum F b.
Proof. unfold msum. rewrite map_app. apply Rsum_app. Qed.

Lemma msum_scale F k l : msum F (map (fun p => (k * fst p, snd p)) l) = k * msum F l.
Proof. unfold msum. induction l as [|p l IH]; simpl; [ring|]. rewrite IH. ring. Qed.

Lemma msum_flat {X} F (f : X -> list (R * dist)) l : msum F (flat_map f l) = Rsum (map (fun x => msum F (f x)) l).
Proof. induction l as [|x l IH]; simpl; [reflexivity|]. now rewrite msum_app, IH. Qed.

Lemma msum_sum F v l : msum F (mix v (PSum l)) = Rsum (map (fun wt => wexp (fst wt) * msum F (mix v (snd wt))) l).
Proof. cbn [mix]. rewrite msum_flat. f_equal. apply map_ext. intros wt. apply msum_scale. Qed.

Lemma msum_prod F v l : msum F (mix v (PProd l)) = Rsum (map (fun t => msum F (mix v t)) l).
Proof. cbn [mix]. apply msum_flat. Qed.

(** The leaves of the mixture are leaves of the circuit about [v]; the weights are not negative. *)
Lemma mix_leaf v P t p : all_leaves P t -> In p (mix v t) -> dvar (snd p) = v /\ P (snd p) /\ 0 <= fst p.
Proof.
  revert p. induction t as [d|l IH|l IH] using pc_ind'; intros p HP Hin.
  - simpl in *. destruct (Nat.eqb_spec (dvar d) v) as [E|]; [|destruct Hin]. destruct Hin as [<-|[]]. simpl. split; [auto|split; [auto|lra]].
  - cbn [mix] in Hin. apply in_flat_map in Hin as (wt & Hwt & Hin). apply in_map_iff in Hin as (q & <- & Hq).
    simpl in HP. rewrite fold_and_Forall, Forall_forall in HP. rewrite Forall_forall in IH.
    destruct (IH wt Hwt q (HP wt Hwt) Hq) as (H1 & H2 & H3). simpl. repeat split; auto. apply Rmult_le_pos; auto.
    destruct (fst wt); simpl; try lra. left. apply exp_pos.
  - cbn [mix] in Hin. apply in_flat_map in Hin as (t & Ht & Hin).
    simpl in HP. rewrite fold_and_Forall, Forall_forall in HP. rewrite Forall_forall in IH. now apply (IH t Ht p (HP t Ht)).
Qed.

Lemma flat_map_nil {X Y} (f : X -> list Y) l : (forall x, In x l -> f x = []) -> flat_map f l = [].
Proof. induction l as [|x l IH]; intros H; [reflexivity|]. simpl. rewrite H, IH; auto using in_eq. intros y Hy. apply H. now right. Qed.

Lemma mix_nil v t : ~ mentions dist_vars t v -> mix v t = [].
Proof.
  induction t as [d|l IH|l IH] using pc_ind'; intros Hm.
  - simpl in *. destruct (Nat.eqb_spec (dvar d) v); [exfalso; tauto|reflexivity].
  - cbn [mix]. simpl in Hm. rewrite Forall_forall in IH. apply flat_map_nil. intros wt Hwt.
    rewrite IH; auto. intros H. apply Hm. apply fold_or_Exists, Exists_exists. eauto.
  - cbn [mix]. simpl in Hm. rewrite Forall_forall in IH. apply flat_map_nil. intros t Ht.
    apply IH; auto. intros H. apply Hm. apply fold_or_Exists, Exists_exists. eauto.
Qed.

(** A circuit without [v] has value one. *)
Lemma semR_absent v F t : normalised t -> all_leaves (fun d => dvar d <> v -> F d = 1) t -> ~ mentions dist_vars t v -> semR F t = 1.
Proof.
  intros Hn HF Hno. apply semR_one; auto.
  eapply all_leaves_impl; [|apply (all_leaves_and _ _ _ (all_leaves_mentions dist_vars t) HF)]. simpl. intros d [A B]. apply B.
  intros E. apply Hno, A. now left.
Qed.

Lemma prod_mix v F (l : list (pc dist)) : Forall normalised l -> Forall (all_leaves (fun d => dvar d <> v -> F d = 1)) l ->
  Forall (fun t => mentions dist_vars t v -> semR F t = msum F (mix v t)) l ->
  pairwise_disjoint (map (fun t => mentions dist_vars t) l) ->
  (Exists (fun t => mentions dist_vars t v) l -> Rprod (map (semR F) l) = Rsum (map (fun t => msum F (mix v t)) l)) /\
  (~ Exists (fun t => mentions dist_vars t v) l -> Rprod (map (semR F) l) = 1 /\ Rsum (map (fun t => msum F (mix v t)) l) = 0).
Proof.
  intros Hn HF HM Hpw. induction l as [|t l IH]; [split; [intros H; inversion H|split; reflexivity]|].
  inversion Hn as [|? ? N1 N2]; inversion HF as [|? ? F1 F2]; inversion HM as [|? ? M1 M2]; subst. simpl in Hpw. destruct Hpw as [P1 P2].
  rewrite map_map in P1. apply fold_and_Forall in P1. rewrite Forall_forall in P1.
  destruct (IH N2 F2 M2 P2) as [I1 I2]. cbn [map]. change (Rprod (semR F t :: ?a)) with (semR F t * Rprod a).
  split.
  - intros Hex. inversion Hex as [? ? Hmt|? ? Hml]; subst.
    + assert (Hno : ~ Exists (fun t => mentions dist_vars t v) l).
      { intros Hml. apply Exists_exists in Hml as (t' & Ht' & H'). exact (P1 t' Ht' v (conj Hmt H')). }
      destruct (I2 Hno) as [J1 J2]. unfold Rprod, Rsum in *. simpl. rewrite J1, J2, M1 by auto. ring.
    + assert (Hnt : ~ mentions dist_vars t v).
      { intros Hmt. apply Exists_exists in Hml as (t' & Ht' & H'). exact (P1 t' Ht' v (conj Hmt H')). }
      specialize (I1 Hml). unfold Rprod, Rsum in *. simpl. rewrite I1, (semR_absent v), (mix_nil v t Hnt) by auto. unfold msum. simpl. ring.
  - intros Hex. assert (Hnt : ~ mentions dist_vars t v) by (intros H; apply Hex; now left).
    assert (Hno : ~ Exists (fun t => mentions dist_vars t v) l) by (intros H; apply Hex; now right).
    destruct (I2 Hno) as [J1 J2]. unfold Rprod, Rsum in *. simpl. rewrite J1, J2, (semR_absent v), (mix_nil v t Hnt) by auto. unfold msum. simpl. split; ring.
Qed.

(** A factor that is one on every leaf about another variable: the circuit's value is the mixture of the leaf values. *)
Lemma semR_mix v F t : normalised t -> smooth dist_vars t -> decomposable dist_vars t -> mentions dist_vars t v ->
  all_leaves (fun d => dvar d <> v -> F d = 1) t -> semR F t = msum F (mix v t).
Proof.
  induction t as [d|l IH|l IH] using pc_ind'; intros Hn Hs Hd Hm HF.
  - simpl in *. destruct Hm as [E|[]]. rewrite E, Nat.eqb_refl. unfold msum. simpl. ring.
  - rewrite msum_sum. cbn [semR]. f_equal. apply map_ext_in. intros wt Hwt. f_equal.
    unfold normalised in *. simpl in Hn, Hs, Hd, HF. destruct Hn as [_ Hn]. destruct Hs as [Hsm Hs]. assert (Hsm' := Hsm v Hm).
    rewrite fold_and_Forall in *. rewrite Forall_forall in *. apply IH; auto.
  - rewrite msum_prod. cbn [semR]. simpl in Hm. apply fold_or_Exists in Hm. unfold normalised in *. simpl in Hn, Hs, Hd, HF.
    destruct Hd as [Hpw Hd]. rewrite fold_and_Forall in *. apply prod_mix; auto. clear Hm.
    rewrite Forall_forall in *. intros t Ht Hmt. apply IH; auto.
Qed.

(** The weights of a mixture add up to one. *)
Lemma mix_total v t : normalised t -> smooth dist_vars t -> decomposable dist_vars t -> mentions dist_vars t v ->
  Rsum (map fst (mix v t)) = 1.
Proof.
  intros Hn Hs Hd Hm. replace (Rsum (map fst (mix v t))) with (msum (fun _ => 1) (mix v t)).
  - rewrite <- semR_mix; auto; [apply semR_one; auto; now apply all_leaves_True|]. now apply all_leaves_True.
  - unfold msum. f_equal. apply map_ext. intros p. ring.
Qed.

(** ** The moment pass *)
Definition vreal (f : nat -> R) (vars : list nat) : vec := map (fun v => Fin (f v)) vars.

Lemma vadd_real f h vars : vadd (vreal f vars) (vreal h vars) = vreal (fun v => f v + h v) vars.
Proof. induction vars; simpl; auto. f_equal. exact IHvars. Qed.

Lemma vzero_real vars : vzero (length vars) = vreal (fun _ => 0) vars.
Proof. induction vars; simpl; auto. unfold vzero in *. simpl. now f_equal. Qed.

Lemma vscale_real w f vars : lw_ok w -> vscale (nexp w) (vreal f vars) = vreal (fun v => wexp w * f v) vars.
Proof.
  intros Hw. unfold vscale, vreal. rewrite map_map. apply map_ext. intros v. destruct w; simpl in *; try tauto; f_equal; ring.
Qed.

Lemma fold_vadd_real {X} (f : X -> nat -> R) h vars l :
  fold_left vadd (map (fun x => vreal (f x) vars) l) (vreal h vars) = vreal (fun v => h v + Rsum (map (fun x => f x v) l)) vars.
Proof.
  revert h. induction l as [|x l IH]; intros h; cbn [map fold_left].
  - unfold vreal. apply map_ext. intros. f_equal. unfold Rsum. simpl. ring.
  - rewrite vadd_real, IH. unfold vreal. apply map_ext. intros v. f_equal. unfold Rsum. simpl. ring.
Qed.

Lemma vset_real vars v i m : NoDup vars -> var_index vars v = Some i ->
  vset i (Fin m) (vzero (length vars)) = vreal (fun w => if (w =? v)%nat then m else 0) vars.
Proof.
  intros Hnd. revert i. induction vars as [|w vars IH]; intros i Hi; [discriminate|]. inversion Hnd; subst. simpl in Hi.
  unfold vzero. cbn [length repeat vset]. destruct (Nat.eqb_spec w v) as [E|E].
  - injection Hi as <-. unfold vreal. cbn [map vset]. rewrite E, Nat.eqb_refl. subst w. f_equal.
    fold (vzero (length vars)). rewrite vzero_real. unfold vreal. apply map_ext_in. intros u Hu.
    destruct (Nat.eqb_spec u v) as [->|]; [tauto|reflexivity].
  - destruct (var_index vars v) as [j|] eqn:Ej; [|discriminate]. injection Hi as <-. unfold vreal. cbn [map vset].
    rewrite (proj2 (Nat.eqb_neq w v) E). f_equal. apply IH; auto.
Qed.

(** The moment of the mixture, variable by variable. *)
Lemma tev_moment vars order center mm t : NoDup vars -> sums_nonempty t -> products_nonempty t -> all_sums (Forall lw_ok) t ->
  all_leaves (fun d => In (dvar d) vars /\ exists n c, order (dvar d) = Some n /\ center (dvar d) = Some c /\ moment1 d n c = Some (mm d)) t ->
  tev (leaf_moment vars order center) (sum_moment (length vars)) (prod_moment (length vars)) t = Some (vreal (fun v => msum mm (mix v t)) vars).
Proof.
  intros Hnd. induction t as [d|l IH|l IH] using pc_ind'; intros Hs Hp Hw HL.
  - simpl in HL. destruct HL as (Hin & n & c & E1 & E2 & E3). cbn [tev]. unfold leaf_moment. rewrite E1, E2, E3.
    destruct (var_index_spec vars (dvar d) Hin) as (i & Ei & _). rewrite Ei, (vset_real vars (dvar d)) by auto.
    f_equal. apply map_ext. intros v. f_equal. cbn [mix]. rewrite (Nat.eqb_sym v). destruct (dvar d =? v)%nat; unfold msum; simpl; ring.
  - cbn [tev]. simpl in Hs, Hp, Hw, HL. destruct Hs as [Hne Hs]. destruct Hw as [Hw1 Hw].
    rewrite Forall_map_id in Hs. rewrite fold_and_Forall in *.
    assert (M : mapM (fun wt => match tev (leaf_moment vars order center) (sum_moment (length vars)) (prod_moment (length vars)) (snd wt) with
                       | Some v => Some (fst wt, v) | None => None end) l
                = Some (map (fun wt => (fst wt, vreal (fun v => msum mm (mix v (snd wt))) vars)) l)).
    { clear Hne Hw1. induction l as [|wt l IHl]; [reflexivity|]. inversion IH; inversion Hs; inversion Hp; inversion Hw; inversion HL; subst.
      unfold mapM in *. cbn [map]. rewrite H1 by auto. now rewrite IHl. }
    rewrite M. unfold sum_moment.
    assert (N : forall X (f : X -> num * vec) (k : list X), k <> [] -> match map f k with [] => None | _ :: _ => Some (fold_left vadd (map (fun p => vscale (nexp (fst p)) (snd p)) (map f k)) (vzero (length vars))) end
      = Some (fold_left vadd (map (fun p => vscale (nexp (fst p)) (snd p)) (map f k)) (vzero (length vars)))).
    { intros X f [|]; [tauto|reflexivity]. }
    rewrite N by exact Hne. f_equal. rewrite map_map. cbn [fst snd].
    transitivity (fold_left vadd (map (fun wt => vreal (fun v => wexp (fst wt) * msum mm (mix v (snd wt))) vars) l) (vreal (fun _ => 0) vars)).
    + rewrite <- vzero_real. f_equal. apply map_ext_in. intros wt Hwt. apply vscale_real.
      rewrite Forall_forall in Hw1. apply Hw1. now apply in_map.
    + rewrite (fold_vadd_real (fun wt v => wexp (fst wt) * msum mm (mix v (snd wt)))). apply map_ext. intros v. f_equal.
      rewrite msum_sum. ring.
  - cbn [tev]. simpl in Hs, Hp, Hw, HL. destruct Hp as [Hne Hp]. rewrite Forall_map_id in Hs. rewrite fold_and_Forall in *.
    assert (M : mapM (tev (leaf_moment vars order center) (sum_moment (length vars)) (prod_moment (length vars))) l
                = Some (map (fun t => vreal (fun v => msum mm (mix v t)) vars) l)).
    { clear Hne. induction l as [|t l IHl]; [reflexivity|]. inversion IH; inversion Hs; inversion Hp; inversion Hw; inversion HL; subst.
      unfold mapM in *. cbn [map]. rewrite H1 by auto. now rewrite IHl. }
    rewrite M. destruct l as [|t0 l0]; [tauto|]. unfold prod_moment. cbn [map].
    change (vreal (fun v => msum mm (mix v t0)) vars :: map (fun t => vreal (fun v => msum mm (mix v t)) vars) l0)
      with (map (fun t => vreal (fun v => msum mm (mix v t)) vars) (t0 :: l0)).
    f_equal. rewrite vzero_real, (fold_vadd_real (fun t v => msum mm (mix v t))). apply map_ext. intros v. f_equal.
    rewrite msum_prod. ring.
Qed.
