(** * WholeLeaf: conditioning a leaf on the whole domain of its variable *)
From Coq Require Import List Arith Bool Lia Reals Lra ZArith.
From Verif Require Import Num Graph Interval GaussInt Dist DistFacts CondFacts PropertiesDist Conditional CondPass LeafCond MixtureFacts.
Import ListNotations.
Local Set Bullet Behavior "Strict Subproofs".
Local Open Scope R_scope.

(** [A] is the domain of the variable of [d]: all reals, or the states of a symbolic variable. *)
Definition whole (d : dist) (A : evset) : Prop :=
  match d, A with
  | DSym _ p, ESym l => NoDup l /\ forall k, In k (keys p) -> In k l
  | DSym _ _, _ => False
  | DDirac _ _ cap, EInt A => A = [ireals] /\ cap = Fin 1
  | _, EInt A => A = [ireals]
  | _, ESym _ => False
  end.

(** The leaf that is left. *)
Definition sureleaf (A : evset) (d : dist) : dist := match leaf_cond d A with Some (LOne d' _) => d' | _ => d end.

Lemma cond_simple_interval_var d j q lp : cond_simple_interval d j = Some (q, lp) -> dvar q = dvar d.
Proof.
  unfold cond_simple_interval. destruct (is_singleton j).
  - destruct (lo j); try discriminate. unfold cond_singleton. intros H. assert (E : q = DDirac (dvar d) r (nexp (ll1 d r))) by congruence. now rewrite E.
  - destruct d; try discriminate; [destruct (continuous_prob _ _); [|discriminate]| |]; intros H; [assert (q = DUnif v j) as -> by congruence|assert (q = DTGauss v j mu sigma) as -> by congruence|assert (q = DTGauss v j mu sigma) as -> by congruence]; reflexivity.
Qed.

Lemma discrete_cond_var d A q lp : discrete_cond d A = Some (Some q, lp) -> dvar q = dvar d.
Proof.
  unfold discrete_cond. destruct d; try discriminate; destruct A; try discriminate; unfold finish_discrete; destruct (Reqb _ 0); intros H; injection H; intros; subst; try discriminate; reflexivity.
Qed.

Lemma sureleaf_var A d : dvar (sureleaf A d) = dvar d.
Proof.
  unfold sureleaf. destruct (leaf_cond d A) as [[|q lp|l lp]|] eqn:E; try reflexivity. unfold leaf_cond in E.
  assert (G : forall (o : option (dist * num)), match o with Some (d', lp0) => Some (LOne d' lp0) | None => None end = Some (LOne q lp) -> o = Some (q, lp)) by (intros [[]|] H; congruence).
  assert (C : match A with
      | EInt A0 => match support_inter d A0 with
          | [] => Some LDead
          | [j] => match cond_simple_interval d j with Some (d', lp0) => Some (LOne d' lp0) | None => None end
          | js => match composite_parts d js with None => None | Some l => let total := nsum (map fst l) in if is_zero total then Some LDead else Some (LMany l (nlog total)) end
          end
      | ESym _ => None
      end = Some (LOne q lp) -> dvar q = dvar d).
  { destruct A as [A|]; [|discriminate]. destruct (support_inter d A) as [|j [|j2 js]]; [discriminate| |].
    - intros H. apply G in H. eapply cond_simple_interval_var; eauto.
    - destruct (composite_parts d _); [|discriminate]. cbv zeta. destruct (is_zero _); discriminate. }
  assert (Dc : match discrete_cond d A with None => None | Some (Some d', lp0) => Some (LOne d' lp0) | Some (None, _) => Some LDead end = Some (LOne q lp) -> dvar q = dvar d).
  { destruct (discrete_cond d A) as [[[d'|] lp0]|] eqn:Ed; try discriminate. intros H. assert (d' = q) as -> by congruence. eapply discrete_cond_var; eauto. }
  destruct d; [apply C| apply C|apply C|apply C|apply Dc|apply Dc]; exact E.
Qed.

Lemma ireals_ok : sint_ok ireals.
Proof. unfold sint_ok, ireals. cbn. repeat split; try discriminate. now left. Qed.

Lemma reals_ok : interval_ok [ireals].
Proof. split; [constructor; [apply ireals_ok|constructor]|cbn; split; [intros j []|exact I]]. Qed.

Lemma in_reals x : in_sint ireals x = true.
Proof. reflexivity. Qed.

Lemma inter_reals i : sint_ok i -> lo (sint_inter i ireals) = lo i /\ hi (sint_inter i ireals) = hi i.
Proof.
  destruct i as [l h a b]. unfold sint_ok, sint_inter, nmax_lo, nmin_hi, ireals. cbn [lo hi lc rc]. intros (H1 & H2 & H3 & H4 & _).
  destruct l as [| |l|], h as [| |h|]; cbn; try tauto; try congruence.
Qed.

Lemma nlog_one : nlog (Fin 1) = Fin 0.
Proof. cbn. destruct (total_order_T 1 0) as [[H|H]|H]; try lra. now rewrite ln_1. Qed.

(** A discrete distribution without the states of probability zero. *)
Lemma disc_value p x : dict_ok p -> (forall k, x <> IZR k) -> Rsum (map (fun kq => ind (Reqb x (IZR (fst kq))) * snd kq) p) = 0.
Proof. intros _ H. apply Rsum_zero. intros [k q] _. cbn [fst snd]. destruct (Reqb_spec x (IZR k)); [exfalso; eapply H; eauto|]. unfold ind. ring. Qed.

Lemma disc_value_at p k : dict_ok p -> Rsum (map (fun kq => ind (Reqb (IZR k) (IZR (fst kq))) * snd kq) p) = dget p k.
Proof.
  intros [Hn _]. assert (E := Rsum_dget p [k] Hn). cbn [map] in E. unfold Rsum in E at 1. cbn [fold_right] in E. rewrite Rplus_0_r in E. rewrite E by (repeat constructor; intros []).
  apply Rsum_ext. intros [k' q] _. cbn [fst snd existsb]. rewrite orb_false_r. f_equal. f_equal.
  destruct (Reqb_spec (IZR k) (IZR k')) as [Q|Q], (Z.eqb_spec k' k) as [Q'|Q']; auto; [apply eq_IZR in Q; congruence|subst; contradiction].
Qed.

Lemma disc_same v v' p q x : dict_ok p -> dict_ok q -> (forall k, dget q k = dget p k) -> nexp (ll1 (DSym v q) x) = nexp (ll1 (DSym v' p) x).
Proof.
  intros Hp Hq H. rewrite !disc_ll by assumption. f_equal. destruct (Classical_Prop.classic (exists k, x = IZR k)) as [[k ->]|Hx].
  - rewrite !disc_value_at by assumption. apply H.
  - rewrite !disc_value; auto; intros k E; apply Hx; eauto.
Qed.

Lemma whole_event d A : whole d A -> evset_ok d A /\ covers d A.
Proof.
  destruct d as [v i|v l c|v mu s|v i mu s|v p|v p], A as [A|L]; cbn [whole evset_ok covers]; try tauto; try (intros ->); try (intros [-> _]);
    try (split; [split; [apply reals_ok|discriminate]|reflexivity]).
  intros [N H]. split; [exact N|]. intros k Hk. rewrite in_esym. now apply existsb_Zeqb, H.
Qed.

(** Conditioning on the whole domain is certain and keeps the density. *)
Lemma whole_spec d A : dist_ok d -> whole d A -> leaf_cond d A = Some (LOne (sureleaf A d) (Fin 0)) /\ dist_ok (sureleaf A d) /\
  forall x, nexp (ll1 (sureleaf A d) x) = nexp (ll1 d x).
Proof.
  intros Hok Hw. destruct (whole_event d A Hw) as [He Hcov]. assert (Ht := probR_total d A Hok He Hcov).
  enough (X : exists q, leaf_cond d A = Some (LOne q (Fin 0)) /\ dist_ok q /\ forall x, nexp (ll1 q x) = nexp (ll1 d x)).
  { destruct X as (q & E & Hq & Hl). unfold sureleaf. rewrite E. auto. }
  assert (Disc : match d with DSym _ _ | DInt _ _ => True | _ => False end -> exists q, leaf_cond d A = Some (LOne q (Fin 0)) /\ dist_ok q /\ forall x, nexp (ll1 q x) = nexp (ll1 d x)).
  { intros Hd. destruct (C31_conditional d A) as (HP & res & mk & Hc & Hmk & Hdc).
    { destruct d; cbn in *; tauto. }
    { destruct d, A; cbn in *; tauto. }
    assert (EP : mass_in (dict_of d) A = 1) by (rewrite prob1_R in HP by auto; injection HP as HP; lra).
    assert (El : leaf_cond d A = match discrete_cond d A with None => None | Some (Some d', lp) => Some (LOne d' lp) | Some (None, _) => Some LDead end) by (destruct d; simpl in *; tauto).
    destruct Hc as [_ C2]. rewrite EP in C2. destruct C2 as (q & Eq & Q1 & Q2 & Q3); [lra|].
    rewrite Hdc, Eq in El. cbn [fst snd option_map] in El. rewrite ln_1 in El. exists (mk q). split; [exact El|].
    assert (Hok' : dict_ok (dict_of d)) by (destruct d; cbn in *; tauto).
    assert (Q4 : forall k, dget q k = dget (dict_of d) k).
    { intros k. rewrite Q3. destruct (in_evset A (IZR k)) eqn:Ek; [field|]. symmetry. apply dget_absent. intros Hk.
      destruct d; cbn [covers dict_of] in *; try tauto; [rewrite Hcov in Ek by auto|rewrite Hcov in Ek]; discriminate. }
    assert (Hqok : dict_ok q).
    { split; auto. apply Forall_forall. intros y Hy. apply in_map_iff in Hy. destruct Hy as [[k z] [<- Hy]]. cbn [snd].
      rewrite <- (dget_In q k z) by auto. rewrite Q4. now apply dget_nonneg. }
    assert (Hmk' : match d with DSym v _ => mk q = DSym v q | DInt v _ => mk q = DInt v q | _ => False end).
    { destruct d as [v i|v loc c|v mu s|v i mu s|v p|v p], A as [A|L]; simpl in *; try tauto; unfold finish_discrete in Hdc;
          destruct (Reqb _ 0); try (rewrite Eq in Hdc; simpl in Hdc; congruence);
          rewrite Eq in Hdc; simpl in Hdc; injection Hdc as Hdc _; specialize (Hmk q); rewrite <- Hdc in Hmk |- *; simpl in Hmk; now rewrite Hmk. }
    assert (Q1' : Rsum (vals q) = 1) by exact Q1.
    destruct d as [v i|v loc c|v mu s|v i mu s|v p|v p]; cbn in Hd; try tauto; cbn [dict_of] in *; rewrite Hmk'; (split; [split; assumption|]); intros x.
    - exact (disc_same v v p q x Hok' Hqok Q4).
    - exact (disc_same v v p q x Hok' Hqok Q4). }
  assert (Cont : is_cont d -> exists q, leaf_cond d A = Some (LOne q (Fin 0)) /\ dist_ok q /\ forall x, nexp (ll1 q x) = nexp (ll1 d x)).
  { intros Hc. assert (A = EInt [ireals]) as -> by (destruct d, A; cbn in Hc, Hw; try tauto; now rewrite Hw).
    destruct (cont_support d Hc Hok) as (i & Es & Hi & Hlt & Hins & _). set (j := sint_inter i ireals).
    destruct (inter_reals i Hi) as [Hlo Hhi]. fold j in Hlo, Hhi.
    assert (Ne : sint_empty j = false).
    { unfold sint_empty. rewrite Hlo, Hhi. destruct (lo i) as [| |a|], (hi i) as [| |b|]; cbn in Hlt; try tauto. destruct (Rltb_spec b a); [lra|]. destruct (Reqb_spec a b); [lra|reflexivity]. }
    assert (ES : support_inter d [ireals] = [j]) by (unfold support_inter; rewrite Es, inter_single; cbn [map filter]; fold j; rewrite Ne; reflexivity).
    assert (Ns : is_singleton j = false).
    { unfold is_singleton. rewrite Hlo, Hhi. destruct (lo i) as [| |a|], (hi i) as [| |b|]; cbn in Hlt; try tauto; try reflexivity. destruct (Reqb_spec a b); [lra|reflexivity]. }
    assert (Pj : part_mass d j = 1).
    { unfold part_mass. rewrite Ns. destruct (support_inter_prob d [ireals] Hc Hok reals_ok) as (_ & HP & _). rewrite ES in HP. now rewrite HP. }
    destruct (cont_part d [ireals] j Hc Hok He) as (q & Eq & _ & (Hq & _ & _ & _) & _); [rewrite ES; now left|].
    rewrite Pj, nlog_one in Eq. exists q. split; [|split; [exact Hq|]].
    { assert (El : leaf_cond d (EInt [ireals]) = match support_inter d [ireals] with
        | [] => Some LDead
        | [j] => match cond_simple_interval d j with Some (d', lp) => Some (LOne d' lp) | None => None end
        | js => match composite_parts d js with
              | None => None
              | Some l => let total := nsum (map fst l) in
                          if is_zero total then Some LDead else Some (LMany l (nlog total))
              end
        end) by (destruct d; cbn in Hc; try tauto; reflexivity).
      rewrite El, ES, Eq. reflexivity. }
    assert (Hin : forall x, in_sint j x = in_sint i x) by (intros x; unfold j; rewrite sint_inter_points by (auto; apply ireals_ok); now rewrite in_reals, andb_true_r).
    intros x. unfold cond_simple_interval in Eq. rewrite Ns in Eq.
    destruct d as [v k|v loc c|v mu s|v k mu s|v p|v p]; cbn in Hc; try tauto.
    - assert (Ei : i = k) by (cbn in Es; congruence). rewrite <- Ei. destruct (continuous_prob _ _) as [pr|]; [|discriminate].
      assert (q = DUnif v j) as -> by congruence. cbn [ll1]. now rewrite Hin, Hlo, Hhi.
    - assert (Ei : i = ireals) by (cbn in Es; congruence). assert (q = DTGauss v j mu s) as -> by congruence. cbn [ll1]. rewrite Hin, Ei, in_reals.
      assert (Ec : nlog (tg_const j mu s) = Fin 0).
      { assert (El : nlog (nsub (continuous_cdf (DGauss v mu s) (hi j)) (continuous_cdf (DGauss v mu s) (lo j))) = Fin 0) by congruence. exact El. }
      rewrite Ec. destruct (gauss_logpdf_fin mu s x Hok) as (y & ->). cbn [nsub nopp nadd]. do 2 f_equal. ring.
    - assert (Ei : i = k) by (cbn in Es; congruence). rewrite <- Ei. assert (q = DTGauss v j mu s) as -> by congruence. cbn [ll1]. unfold tg_const. now rewrite Hin, Hlo, Hhi. }
  destruct d as [v i|v loc c|v mu s|v i mu s|v p|v p]; [apply Cont; exact I| |apply Cont; exact I|apply Cont; exact I|apply Disc; exact I|apply Disc; exact I].
  destruct A as [A|]; [|destruct Hw]. destruct Hw as [-> ->]. exists (DDirac v loc (Fin 1)). split; [|split].
  - assert (E : support_inter (DDirac v loc (Fin 1)) [ireals] = [mkSint (Fin loc) (Fin loc) true true]).
    { unfold support_inter. cbn [support1]. rewrite inter_single. cbn [map]. unfold sint_inter, nmax_lo, nmin_hi, ireals. cbn [lo hi lc rc fst snd]. cbn [filter]. unfold sint_empty. cbn [lo hi lc rc].
      cbn. destruct (Rltb_spec loc loc); [lra|]. destruct (Reqb_spec loc loc); reflexivity. }
    cbn [leaf_cond]. rewrite E. unfold cond_simple_interval, is_singleton. cbn [lo hi lc rc]. destruct (Reqb_spec loc loc) as [_|X]; [|contradiction]. cbn [andb]. unfold cond_singleton. cbn [dvar ll1].
    destruct (Reqb_spec loc loc) as [_|X]; [|contradiction]. rewrite nlog_one. cbn [nexp]. now rewrite exp_0.
  - exact Hok.
  - reflexivity.
Qed.
