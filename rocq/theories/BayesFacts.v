(** * BayesFacts: the forward pass of a Bayesian network *)
From Coq Require Import List Arith Bool Lia ZArith Reals Lra Permutation.
From Verif Require Import Num Graph GraphFacts Spec SpecFacts Circuit Interval Dist DistFacts Conditional PropertiesDist FromMixture
  MultinomialFacts ModeFacts Layout Mixture Interaction Bayes.
Import ListNotations.
Local Set Bullet Behavior "Strict Subproofs".
Local Open Scope R_scope.

(** Probability of a set of states. *)
Definition pmass (p : dict) (l : list Z) : R := Rsum (map (dget p) l).
Definition ev_ind (l : list Z) (k : Z) : R := ind (existsb (Z.eqb k) l).

Lemma pmass_nonneg p l : dict_ok p -> 0 <= pmass p l.
Proof. intros H. apply Rsum_nonneg. apply Forall_forall. intros x Hx. apply in_map_iff in Hx. destruct Hx as (k & <- & _). now apply dget_nonneg. Qed.

Lemma pmass_zero p l k : dict_ok p -> pmass p l = 0 -> In k l -> dget p k = 0.
Proof.
  intros H E Hk. assert (F := Rsum_nonneg_zero (map (dget p) l)). rewrite Forall_map, Forall_forall, Forall_map, Forall_forall in F.
  apply F; auto. intros x _. now apply dget_nonneg.
Qed.

Lemma ev_ind_in l k : In k l -> ev_ind l k = 1.
Proof. intros H. unfold ev_ind. apply existsb_Zeqb in H. now rewrite H. Qed.
Lemma ev_ind_out l k : ~ In k l -> ev_ind l k = 0.
Proof. intros H. unfold ev_ind. destruct (existsb (Z.eqb k) l) eqn:E; [|reflexivity]. apply existsb_Zeqb in E. contradiction. Qed.

Lemma cond_dict_spec p l : dict_ok p -> NoDup l ->
  Rsum (vals (sym_cond_dict p l)) = pmass p l /\ (forall k, dget (sym_cond_dict p l) k = ev_ind l k * dget p k) /\ dict_ok (sym_cond_dict p l) /\
  keys (sym_cond_dict p l) = filter (fun k => Rltb 0 (dget p k)) l.
Proof.
  intros Hok Hn.
  assert (Ek : keys (sym_cond_dict p l) = filter (fun k => Rltb 0 (dget p k)) l) by (unfold sym_cond_dict, keys; rewrite map_map; cbn [fst]; apply map_id).
  split; [|split; [|split; [split|]]]; auto.
  - unfold sym_cond_dict, vals, pmass. rewrite map_map. cbn [snd]. clear -Hok. induction l as [|k l IH]; [reflexivity|]. cbn [filter map].
    destruct (Rltb_spec 0 (dget p k)); cbn [map]; unfold Rsum in *; cbn [fold_right]; rewrite IH; auto. assert (0 <= dget p k) by now apply dget_nonneg. lra.
  - intros k. unfold sym_cond_dict.
    assert (G : forall l, dget (map (fun k => (k, dget p k)) l) k = if existsb (Z.eqb k) l then dget p k else 0).
    { clear. induction l as [|a l IH]; [reflexivity|]. cbn [map existsb]. rewrite dget_cons, IH, (Z.eqb_sym k a). destruct (Z.eqb_spec a k); simpl; subst; auto. }
    rewrite G. destruct (in_dec Z.eq_dec k l) as [Hk|Hk].
    + rewrite ev_ind_in by auto. destruct (existsb (Z.eqb k) (filter _ l)) eqn:E; [ring|].
      assert (~ 0 < dget p k). { intros Hp. apply not_true_iff_false in E. apply E. apply existsb_Zeqb, filter_In. split; auto. destruct (Rltb_spec 0 (dget p k)); tauto. }
      assert (0 <= dget p k) by now apply dget_nonneg. lra.
    + rewrite ev_ind_out by auto. destruct (existsb (Z.eqb k) (filter _ l)) eqn:E; [|ring]. apply existsb_Zeqb, filter_In in E. tauto.
  - rewrite Ek. now apply NoDup_filter.
  - unfold sym_cond_dict, vals. rewrite map_map. cbn [snd]. apply Forall_map. apply Forall_forall. intros k _. now apply dget_nonneg.
Qed.

Lemma dnormalize_get p k : dget (dnormalize p) k = dget p k / Rsum (vals p).
Proof. apply (dget_map p (fun q => q / Rsum (vals p))). unfold Rdiv. ring. Qed.

Lemma dnormalize_ok p : dict_ok p -> Rsum (vals p) <> 0 -> dict_ok (dnormalize p).
Proof.
  intros [H1 H2] Hs. split.
  - unfold dnormalize, keys. now rewrite map_map.
  - unfold dnormalize, vals at 1. rewrite map_map. cbn [snd]. apply Forall_map. apply Forall_forall. intros kv Hkv.
    assert (0 <= Rsum (vals p)) by now apply Rsum_nonneg. unfold vals in H2 at 1. rewrite Forall_map, Forall_forall in H2.
    apply Rmult_le_pos; [now apply H2|]. left. apply Rinv_0_lt_compat. lra.
Qed.

(** Conditioning a dictionary. *)
Lemma conditional_spec p l : dict_ok p -> NoDup l ->
  (pmass p l = 0 /\ sym_log_conditional p l = (None, NInf)) \/
  (0 < pmass p l /\ exists c, sym_log_conditional p l = (Some c, nlog (Fin (pmass p l))) /\ dict_ok c /\ Rsum (vals c) = 1 /\
     (forall k, dget c k = ev_ind l k * dget p k / pmass p l) /\ keys c = filter (fun k => Rltb 0 (dget p k)) l).
Proof.
  intros Hok Hn. destruct (cond_dict_spec p l Hok Hn) as (E1 & E2 & E3 & E4). unfold sym_log_conditional. rewrite E1.
  destruct (Reqb_spec (pmass p l) 0) as [Z|NZ]; [left; auto|right]. assert (0 <= pmass p l) by now apply pmass_nonneg.
  split; [lra|]. eexists. split; [reflexivity|]. rewrite <- E1 in NZ.
  split; [now apply dnormalize_ok|]. destruct (C31_normalize _ NZ) as (N1 & N2 & _). split; [exact N1|]. split; [|congruence].
  intros k. now rewrite dnormalize_get, E1, E2.
Qed.

(** ** Accumulating entries *)
Lemma add_entries_spec w c : forall acc, NoDup (keys c) -> NoDup (keys acc) ->
  (forall k, dget (add_entries w c acc) k = dget acc k + w * dget c k) /\ NoDup (keys (add_entries w c acc)) /\
  (forall k, In k (keys (add_entries w c acc)) <-> In k (keys c) \/ In k (keys acc)).
Proof.
  induction c as [|[a q] c IH]; intros acc Hc Ha; cbn [add_entries fold_left fst snd].
  - split; [|split]; auto; [intros k; unfold dget at 3; cbn; ring|intros k; cbn; tauto].
  - inversion Hc as [|? ? Hac Hc']; subst. destruct (keys_dset acc a (dget acc a + w * q) Ha) as [K1 K2].
    destruct (IH (dset acc a (dget acc a + w * q)) Hc' K1) as (G & N & I). unfold add_entries in G, N, I. split; [|split; [exact N|]].
    + intros k. rewrite G, dget_dset, dget_cons. destruct (Z.eqb_spec a k) as [<-|_]; [|reflexivity]. rewrite (dget_absent c a) by exact Hac. ring.
    + intros k. rewrite I, K2. cbn [keys map fst]. cbn [In]. unfold keys. intuition congruence.
Qed.

Lemma dset_keys_same p k q : In k (keys p) -> keys (dset p k q) = keys p.
Proof.
  intros H. unfold dset. assert (existsb (fun kv : Z * R => Z.eqb (fst kv) k) p = true) as ->.
  { apply existsb_exists. apply in_map_iff in H. destruct H as (kv & E & Hin). exists kv. split; auto. rewrite E. apply Z.eqb_refl. }
  unfold keys. rewrite map_map. apply map_ext. intros kv. destruct (Z.eqb (fst kv) k); reflexivity.
Qed.

Lemma add_entries_keys w c : forall acc, incl (keys c) (keys acc) -> keys (add_entries w c acc) = keys acc.
Proof.
  induction c as [|[a q] c IH]; intros acc Hi; [reflexivity|]. cbn [add_entries fold_left fst snd].
  assert (E : keys (dset acc a (dget acc a + w * q)) = keys acc) by (apply dset_keys_same, Hi; now left).
  change (keys (add_entries w c (dset acc a (dget acc a + w * q))) = keys acc). rewrite IH; [exact E|]. rewrite E. intros x Hx. apply Hi. now right.
Qed.

Lemma add_entries_new w c : forall acc, NoDup (keys c) -> (forall k, In k (keys c) -> ~ In k (keys acc)) -> keys (add_entries w c acc) = keys acc ++ keys c.
Proof.
  induction c as [|[a q] c IH]; intros acc Hc Hd; [cbn; now rewrite app_nil_r|]. inversion Hc as [|? ? Hac Hc']; subst. cbn [add_entries fold_left fst snd].
  assert (Ha : ~ In a (keys acc)) by (apply Hd; now left).
  assert (E : dset acc a (dget acc a + w * q) = acc ++ [(a, dget acc a + w * q)]).
  { unfold dset. destruct (existsb (fun kv : Z * R => Z.eqb (fst kv) a) acc) eqn:X; [|reflexivity]. exfalso. apply Ha.
    apply existsb_exists in X. destruct X as (kv & Hin & X). apply Z.eqb_eq in X. rewrite <- X. now apply in_map. }
  rewrite E. change (keys (add_entries w c (acc ++ [(a, dget acc a + w * q)])) = keys acc ++ keys ((a, q) :: c)).
  rewrite IH; auto.
  - unfold keys. rewrite map_app. cbn [map fst]. now rewrite <- app_assoc.
  - intros k Hk. unfold keys. rewrite map_app, in_app_iff. cbn [map fst In]. intros [H|[<-|[]]]; [|contradiction].
    revert H. apply Hd. now right.
Qed.

(** ** One node: the message in terms of the parent's message *)
Definition tab (cpd : list (Z * dict)) (s k : Z) : R := match row_of cpd s with Some row => dget row k | None => 0 end.
Definition tmass (cpd : list (Z * dict)) (s : Z) (l : list Z) : R := Rsum (map (tab cpd s) l).

(** Every state in [l] has a row. *)
Definition rows_ok (cpd : list (Z * dict)) (l : list Z) : Prop := forall s, In s l -> exists row, row_of cpd s = Some row /\ dict_ok row.

Lemma tab_row cpd s row k : row_of cpd s = Some row -> tab cpd s k = dget row k.
Proof. intros H. unfold tab. now rewrite H. Qed.
Lemma tmass_row cpd s row l : row_of cpd s = Some row -> tmass cpd s l = pmass row l.
Proof. intros H. unfold tmass, pmass. apply Rsum_ext. intros k _. now apply tab_row. Qed.

(** The weight a parent state gives to a state, normalised over the evidence. *)
Definition share (cpd : list (Z * dict)) (ev : list Z) (s k : Z) : R := ev_ind ev k * tab cpd s k / tmass cpd s ev.

Lemma parent_loop m cpd ev pev : dict_ok m -> NoDup ev -> rows_ok cpd pev -> forall acc fp, dict_ok acc -> incl (keys acc) ev ->
  exists p, foldM (parent_turn m cpd ev) pev (acc, Fin fp) = Some (p, Fin (fp + Rsum (map (fun s => dget m s * tmass cpd s ev) pev))) /\
    dict_ok p /\ incl (keys p) ev /\ (forall k, dget p k = dget acc k + Rsum (map (fun s => dget m s * share cpd ev s k) pev)).
Proof.
  intros Hm Hev. induction pev as [|s pev IH]; intros Hr acc fp Ha Hi.
  - exists acc. cbn. rewrite Rplus_0_r. repeat split; try apply Ha; auto. intros k. ring.
  - assert (Hr' : rows_ok cpd pev) by (intros x Hx; apply Hr; now right). destruct (Hr s) as (row & Er & Ho); [now left|].
    cbn [foldM]. unfold parent_turn at 1. assert (Hs0 : 0 <= dget m s) by now apply dget_nonneg.
    destruct (Reqb_spec (dget m s) 0) as [Z|NZ].
    { destruct (IH Hr' acc fp Ha Hi) as (p & E & Hp & Hk & G). exists p. rewrite E. cbn [map]. unfold Rsum. cbn [fold_right]. rewrite Z. fold (Rsum (map (fun s => dget m s * tmass cpd s ev) pev)).
      split; [do 3 f_equal; ring|]. split; [exact Hp|]. split; [exact Hk|]. intros k. rewrite G. fold (Rsum (map (fun s => dget m s * share cpd ev s k) pev)). ring. }
    rewrite Er. destruct (conditional_spec row ev Ho Hev) as [(Z & ->)|(Pos & c & -> & Hc & Hc1 & Gc & Kc)].
    { destruct (IH Hr' acc fp Ha Hi) as (p & E & Hp & Hk & G). exists p. rewrite E. cbn [map]. unfold Rsum. cbn [fold_right].
      fold (Rsum (map (fun s => dget m s * tmass cpd s ev) pev)). rewrite (tmass_row cpd s row) by auto. rewrite Z.
      split; [do 3 f_equal; ring|]. split; [exact Hp|]. split; [exact Hk|]. intros k. rewrite G. fold (Rsum (map (fun s => dget m s * share cpd ev s k) pev)).
      assert (share cpd ev s k = 0) as ->; [|ring]. unfold share. rewrite (tab_row cpd s row) by auto.
      destruct (in_dec Z.eq_dec k ev) as [Hin|Hout]; [rewrite (pmass_zero row ev k Ho Z Hin)|rewrite ev_ind_out by auto]; unfold Rdiv; ring. }
    destruct (add_entries_spec (dget m s) c acc (proj1 Hc) (proj1 Ha)) as (G1 & N1 & I1).
    assert (Ko : incl (keys (add_entries (dget m s) c acc)) ev).
    { intros k Hk. apply I1 in Hk. destruct Hk as [Hk|Hk]; [|auto]. rewrite Kc in Hk. apply filter_In in Hk. tauto. }
    assert (Oo : dict_ok (add_entries (dget m s) c acc)).
    { split; [exact N1|]. unfold vals. apply Forall_map. apply Forall_forall. intros [k q] Hkq. cbn [snd]. rewrite <- (dget_In _ k q N1 Hkq), G1.
      assert (0 <= dget acc k) by now apply dget_nonneg. assert (0 <= dget c k) by now apply dget_nonneg. assert (0 <= dget m s * dget c k) by (apply Rmult_le_pos; lra). lra. }
    cbn [fst snd]. rewrite nexp_nlog by (cbn; lra). cbn [nmul nadd].
    destruct (IH Hr' _ (fp + dget m s * pmass row ev) Oo Ko) as (p & E & Hp & Hk & G). exists p. rewrite E. split; [|split; [exact Hp|split; [exact Hk|]]].
    + do 3 f_equal. cbn [map]. unfold Rsum. cbn [fold_right]. rewrite (tmass_row cpd s row) by auto. ring.
    + intros k. rewrite G, G1, Gc. cbn [map]. unfold Rsum. cbn [fold_right]. 
      assert (share cpd ev s k = ev_ind ev k * dget row k / pmass row ev) as ->; [|ring]. unfold share. now rewrite (tab_row cpd s row), (tmass_row cpd s row) by auto.
Qed.

(** The sum of a dictionary whose keys are in [ev]. *)
Lemma vals_sum p ev : NoDup (keys p) -> NoDup ev -> incl (keys p) ev -> Rsum (vals p) = Rsum (map (dget p) ev).
Proof.
  intros Hp He Hi. rewrite Rsum_dget by auto. unfold vals. apply Rsum_ext. intros kv Hkv. assert (In (fst kv) ev) by (apply Hi; now apply in_map).
  apply existsb_Zeqb in H. rewrite H. unfold ind. ring.
Qed.

(** [forward_pass] of a table: the exact recurrence the code computes. *)
Definition raw (m : dict) (cpd : list (Z * dict)) (pev ev : list Z) (k : Z) : R := Rsum (map (fun s => dget m s * share cpd ev s k) pev).

Lemma cpt_forward_spec m cpd pev ev : dict_ok m -> NoDup ev -> rows_ok cpd pev ->
  exists msg, cpt_forward (Some m) cpd pev ev = Some (msg, Fin (Rsum (map (fun s => dget m s * tmass cpd s ev) pev))) /\
    let Z := Rsum (map (raw m cpd pev ev) ev) in
    (Z = 0 /\ msg = None \/ 0 < Z /\ exists m', msg = Some m' /\ dict_ok m' /\ Rsum (vals m') = 1 /\ incl (keys m') ev /\ forall k, dget m' k = raw m cpd pev ev k / Z).
Proof.
  intros Hm Hev Hr. destruct (parent_loop m cpd ev pev Hm Hev Hr [] 0) as (p & E & Hp & Hk & G); [split; constructor|intros x []|].
  unfold cpt_forward. rewrite Rplus_0_l in E.
  match goal with |- context [foldM ?f ?l ?a] => replace (foldM f l a) with (Some (p, Fin (Rsum (map (fun s => dget m s * tmass cpd s ev) pev)))) by (symmetry; exact E) end. eexists. split; [reflexivity|].
  assert (G' : forall k, dget p k = raw m cpd pev ev k) by (intros k; rewrite G; unfold raw; unfold dget at 1; cbn [find]; ring).
  assert (ES : Rsum (vals p) = Rsum (map (raw m cpd pev ev) ev)) by (rewrite (vals_sum p ev) by (auto; apply Hp); apply Rsum_ext; auto).
  cbn zeta. rewrite <- ES. assert (0 <= Rsum (vals p)) by apply Rsum_nonneg, Hp. destruct (Reqb_spec (Rsum (vals p)) 0) as [Z|NZ]; [left; auto|right].
  split; [lra|]. exists (dnormalize p). destruct (C31_normalize _ NZ) as (N1 & N2 & _). repeat split; auto.
  - now apply dnormalize_ok.
  - now apply dnormalize_ok.
  - rewrite N2. exact Hk.
  - intros k. now rewrite dnormalize_get, G'.
Qed.
