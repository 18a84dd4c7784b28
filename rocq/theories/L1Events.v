(** * L1Events: differences and unions of events *)
From Coq Require Import List Arith Bool Lia Reals Lra ZArith.
From Verif Require Import Num Graph Spec Circuit Interval Dist DistFacts LeafCond Support SupportFacts L1.
Import ListNotations.
Local Set Bullet Behavior "Strict Subproofs".
Local Open Scope R_scope.

(** ** Intervals *)

Lemma disjointed_app A B : disjointed A -> disjointed B -> (forall i j x, In i A -> In j B -> ~ (in_sint i x = true /\ in_sint j x = true)) -> disjointed (A ++ B).
Proof.
  intros HA HB H. induction A as [|i A IH]; [exact HB|]. destruct HA as [H1 H2]. cbn [app disjointed]. split.
  - intros j Hj x Hx. apply in_app_or in Hj as [Hj|Hj]; [exact (H1 j Hj x Hx)|exact (H i j x (or_introl eq_refl) Hj Hx)].
  - apply IH; [exact H2|]. intros a b x Ha Hb. apply H; [now right|exact Hb].
Qed.

Lemma interval_inter_ok A B : interval_ok A -> interval_ok B -> interval_ok (interval_inter A B).
Proof.
  intros HA HB. induction A as [|i A IH]; [split; [constructor|exact Logic.I]|].
  assert (Hi : sint_ok i) by (destruct HA as [HA _]; now inversion HA).
  assert (HA' : interval_ok A) by (destruct HA as [F1 [_ F2]]; split; [now inversion F1|exact F2]).
  replace (interval_inter (i :: A) B) with (interval_inter [i] B ++ interval_inter A B)
    by (unfold interval_inter; cbn [flat_map]; rewrite app_nil_r, filter_app; reflexivity).
  specialize (IH HA'). destruct (inter_ok i B Hi HB) as [K1 K2]. split; [apply Forall_app; split; [exact K1|apply IH]|].
  apply disjointed_app; [exact K2|apply IH|]. intros j k x Hj Hk [Xj Xk].
  assert (P1 : in_interval (interval_inter [i] B) x = true) by (apply existsb_exists; eauto).
  assert (P2 : in_interval (interval_inter A B) x = true) by (apply existsb_exists; eauto).
  rewrite in_interval_inter in P1, P2 by (first [apply HB|apply HA'|constructor; [exact Hi|constructor]]).
  apply andb_true_iff in P1 as [P1 _]. apply andb_true_iff in P2 as [P2 _]. cbn in P1. rewrite orb_false_r in P1.
  apply existsb_exists in P2 as (a & Ha & Xa). destruct HA as [_ [HA _]]. exact (HA a Ha x (conj P1 Xa)).
Qed.

Lemma sint_compl_ok i : sint_ok i -> interval_ok (sint_compl i).
Proof.
  intros (H1 & H2 & H3 & H4 & H5). unfold sint_compl, interval_ok.
  destruct i as [l h a b]; cbn [lo hi lc rc] in *.
  destruct l as [| |l|], h as [| |h|]; try congruence; cbn [app].
  - split; [constructor; [|constructor]; unfold sint_ok; cbn; repeat split; try discriminate; auto|]. cbn. tauto.
  - split; [constructor|exact Logic.I].
  - split; [constructor; [|constructor; [|constructor]]; unfold sint_ok; cbn; repeat split; try discriminate; auto|].
    cbn [disjointed]. split; [|cbn; tauto]. intros j [<-|[]] x [X1 X2]. unfold in_sint, above, below in X1, X2. cbn [lo hi lc rc] in X1, X2.
    destruct H5 as [H5|(c & E1 & E2 & -> & ->)].
    + cbn in H5. destruct a, b; cbn [negb andb] in *; rb; cbn in *; try discriminate; lra.
    + injection E1 as ->. injection E2 as ->. cbn [negb andb] in *. rb; cbn in *; try discriminate; lra.
  - split; [constructor; [|constructor]; unfold sint_ok; cbn; repeat split; try discriminate; auto|]. cbn. tauto.
Qed.

Lemma in_sint_compl i x : sint_ok i -> in_interval (sint_compl i) x = negb (in_sint i x).
Proof.
  intros (H1 & H2 & H3 & H4 & H5). unfold sint_compl, in_interval, in_sint, above, below.
  destruct i as [l h a b]; cbn [lo hi lc rc] in *.
  destruct l as [| |l|], h as [| |h|]; try congruence; cbn [app existsb lo hi lc rc andb orb negb]; auto.
  - destruct b; cbn [negb]; rb; cbn; auto; lra.
  - destruct H5 as [H5|(c & E1 & E2 & -> & ->)]; [cbn in H5|injection E1 as ->; injection E2 as ->]; try destruct a, b; cbn [negb]; rb; cbn; auto; lra.
  - destruct a; cbn [negb]; rb; cbn; auto; lra.
Qed.

Lemma interval_compl_spec A : interval_ok A -> interval_ok (interval_compl A) /\ forall x, in_interval (interval_compl A) x = negb (in_interval A x).
Proof.
  intros [HA _]. unfold interval_compl.
  assert (K : forall acc, interval_ok acc -> interval_ok (fold_left (fun acc i => interval_inter acc (sint_compl i)) A acc) /\
    forall x, in_interval (fold_left (fun acc i => interval_inter acc (sint_compl i)) A acc) x = in_interval acc x && negb (in_interval A x)).
  { induction A as [|i A IH]; intros acc Hacc; [split; [exact Hacc|intros x; cbn; now rewrite andb_true_r]|].
    inversion HA as [|? ? Hi HA']; subst. cbn [fold_left]. destruct (IH HA' (interval_inter acc (sint_compl i))) as [K1 K2].
    - apply interval_inter_ok; [exact Hacc|now apply sint_compl_ok].
    - split; [exact K1|]. intros x. rewrite K2, in_interval_inter by (try apply Hacc; now apply sint_compl_ok). rewrite in_sint_compl by auto.
      change (in_interval (i :: A) x) with (in_sint i x || in_interval A x). rewrite negb_orb. now rewrite andb_assoc. }
  destruct (K [ireals] Interval.ireals_ok) as [K1 K2]. split; [exact K1|]. intros x. rewrite K2. now rewrite Interval.in_ireals.
Qed.

Lemma interval_minus_ok A B : interval_ok A -> interval_ok B -> interval_ok (interval_minus A B).
Proof. intros HA HB. apply interval_inter_ok; [exact HA|now apply interval_compl_spec]. Qed.

Lemma in_interval_minus A B x : interval_ok A -> interval_ok B -> in_interval (interval_minus A B) x = in_interval A x && negb (in_interval B x).
Proof.
  intros HA HB. unfold interval_minus. destruct (interval_compl_spec B HB) as [K1 K2]. rewrite in_interval_inter by (try apply HA; apply K1).
  now rewrite K2.
Qed.

(** ** Boxes over the real variables [vs] *)

Definition real_set (A : evset) : Prop := exists B, A = EInt B /\ interval_ok B.
Definition real_box (vs : list nat) (b : box) : Prop :=
  NoDup (map fst b) /\ (forall v, In v (map fst b) <-> In v vs) /\ Forall (fun vA => real_set (snd vA)) b.

Lemma real_set_good A : real_set A -> evset_good A.
Proof. intros (B & -> & HB & _). exact HB. Qed.

Lemma real_set_inter A B : real_set A -> real_set B -> real_set (evset_inter A B).
Proof. intros (A' & -> & HA) (B' & -> & HB). eexists. split; [reflexivity|now apply interval_inter_ok]. Qed.

Lemma real_set_minus A B : real_set A -> real_set B -> real_set (evset_minus A B).
Proof. intros (A' & -> & HA) (B' & -> & HB). eexists. split; [reflexivity|now apply interval_minus_ok]. Qed.

Lemma in_evset_minus A B x : real_set A -> real_set B -> in_evset (evset_minus A B) x = in_evset A x && negb (in_evset B x).
Proof. intros (A' & -> & HA) (B' & -> & HB). cbn. now apply in_interval_minus. Qed.

Lemma constrain_keys v A b : In v (map fst b) -> map fst (constrain v A b) = map fst b.
Proof.
  induction b as [|[w B] b IH]; intros H; [destruct H|]. cbn [constrain]. destruct (Nat.eqb_spec w v) as [->|N]; [reflexivity|].
  cbn [map fst] in *. f_equal. apply IH. destruct H as [H|H]; [congruence|exact H].
Qed.

Lemma without_keys v A b : In v (map fst b) -> map fst (without v A b) = map fst b.
Proof.
  induction b as [|[w B] b IH]; intros H; [destruct H|]. cbn [without]. destruct (Nat.eqb_spec w v) as [->|N]; [reflexivity|].
  cbn [map fst] in *. f_equal. apply IH. destruct H as [H|H]; [congruence|exact H].
Qed.

Lemma constrain_real vs v A b : real_box vs b -> In v vs -> real_set A -> real_box vs (constrain v A b).
Proof.
  intros (Nd & Hk & Hr) Hv HA. assert (Hin : In v (map fst b)) by now apply Hk. unfold real_box. rewrite constrain_keys by auto. split; [auto|split; [auto|]].
  clear -Hr HA Hin. induction b as [|[w B] b IH]; [destruct Hin|]. inversion Hr as [|? ? HB Hr']; subst. cbn [constrain].
  destruct (Nat.eqb_spec w v) as [->|N]; constructor; auto; [now apply real_set_inter|]. apply IH; auto. destruct Hin as [H|H]; [cbn in H; congruence|exact H].
Qed.

Lemma without_real vs v A b : real_box vs b -> In v vs -> real_set A -> real_box vs (without v A b).
Proof.
  intros (Nd & Hk & Hr) Hv HA. assert (Hin : In v (map fst b)) by now apply Hk. unfold real_box. rewrite without_keys by auto. split; [auto|split; [auto|]].
  clear -Hr HA Hin. induction b as [|[w B] b IH]; [destruct Hin|]. inversion Hr as [|? ? HB Hr']; subst. cbn [without].
  destruct (Nat.eqb_spec w v) as [->|N]; constructor; auto; [now apply real_set_minus|]. apply IH; auto. destruct Hin as [H|H]; [cbn in H; congruence|exact H].
Qed.

Lemma real_box_good vs b : real_box vs b -> vs <> [] -> box_good b.
Proof.
  intros (_ & Hk & Hr) Hv. split; [|eapply Forall_impl; [|exact Hr]; intros vA; apply real_set_good].
  intros ->. destruct vs as [|v vs]; [congruence|]. exact (proj2 (Hk v) (or_introl eq_refl)).
Qed.

Lemma in_box_cons vA b x : in_box (vA :: b) x = in_evset (snd vA) (x (fst vA)) && in_box b x.
Proof. reflexivity. Qed.

Lemma in_box_without vs v A b x : real_box vs b -> In v vs -> real_set A -> in_box (without v A b) x = in_box b x && negb (in_evset A (x v)).
Proof.
  intros (Nd & Hk & Hr) Hv HA. assert (Hin : In v (map fst b)) by now apply Hk. clear -Hr HA Hin.
  induction b as [|[w B] b IH]; [destruct Hin|]. inversion Hr as [|? ? HB Hr']; subst. cbn [without].
  destruct (Nat.eqb_spec w v) as [->|N]; rewrite !in_box_cons; cbn [fst snd].
  - rewrite in_evset_minus by auto. destruct (in_evset B (x v)), (in_box b x), (in_evset A (x v)); reflexivity.
  - rewrite IH; auto; [now rewrite andb_assoc|]. destruct Hin as [H|H]; [cbn in H; congruence|exact H].
Qed.

Lemma in_box_constrain' vs v A b x : real_box vs b -> real_set A -> in_box (constrain v A b) x = in_box b x && in_evset A (x v).
Proof. intros (_ & _ & Hr) HA. apply in_box_constrain; [now apply real_set_good|]. eapply Forall_impl; [|exact Hr]. intros vA. apply real_set_good. Qed.

(** ** How many boxes contain a point *)

Definition cnt (E : event) (x : nat -> R) : R := Rsum (map (fun b => ind (in_box b x)) E).

Lemma cnt_cons b E x : cnt (b :: E) x = ind (in_box b x) + cnt E x.
Proof. reflexivity. Qed.
Lemma cnt_app E F x : cnt (E ++ F) x = cnt E x + cnt F x.
Proof. unfold cnt. now rewrite map_app, Rsum_app. Qed.
Lemma ind_nonneg b : 0 <= ind b.
Proof. destruct b; cbn; lra. Qed.
Lemma cnt_nonneg E x : 0 <= cnt E x.
Proof. apply Rsum_nonneg. apply Forall_map, Forall_forall. intros. apply ind_nonneg. Qed.

Lemma in_event_cnt E x : in_event E x = true <-> 0 < cnt E x.
Proof.
  induction E as [|b E IH]; [split; [discriminate|intros H; exfalso; revert H; change (cnt [] x) with 0; lra]|].
  rewrite cnt_cons. change (in_event (b :: E) x) with (in_box b x || in_event E x). pose proof (cnt_nonneg E x).
  destruct (in_box b x); cbn [orb ind]; [split; [lra|auto]|]. rewrite IH. split; lra.
Qed.

(** [E] consists of disjoint boxes with the points [X]. *)
Definition tiles (E : event) (X : (nat -> R) -> bool) : Prop := forall x, cnt E x = ind (X x).

Lemma tiles_in E X x : tiles E X -> in_event E x = X x.
Proof. intros H. apply eq_true_iff_eq. rewrite in_event_cnt, H. destruct (X x); cbn [ind]; split; auto; try lra; discriminate. Qed.

Definition real_event (vs : list nat) (E : event) : Prop := Forall (real_box vs) E.

Lemma box_minus_spec vs b : forall a, (forall vA, In vA b -> In (fst vA) vs /\ real_set (snd vA)) -> real_box vs a ->
  real_event vs (box_minus a b) /\ forall x, cnt (box_minus a b) x = ind (in_box a x && negb (in_box b x)).
Proof.
  induction b as [|[v A] b IH]; intros a Hb Ha.
  - split; [constructor|]. intros x. cbn [box_minus in_box forallb negb]. now rewrite andb_false_r.
  - destruct (Hb (v, A) (or_introl eq_refl)) as [Hv HA]; cbn [fst snd] in *. cbn [box_minus].
    destruct (IH (constrain v A a)) as [K1 K2]; [intros vA H; apply Hb; now right|now apply constrain_real|].
    split; [constructor; [now apply without_real|exact K1]|]. intros x. rewrite cnt_cons, K2, (in_box_without vs), (in_box_constrain' vs), in_box_cons; auto. cbn [fst snd].
    destruct (in_box a x), (in_evset A (x v)), (in_box b x); cbn; lra.
Qed.

Lemma box_empty_zero b x : b <> [] -> box_empty b = true -> ind (in_box b x) = 0.
Proof. intros H1 H2. now rewrite (box_empty_none b x H1 H2). Qed.

Lemma cnt_filter vs E x : vs <> [] -> real_event vs E -> cnt (filter (fun c => negb (box_empty c)) E) x = cnt E x.
Proof.
  intros Hv H. induction H as [|b E Hb _ IH]; [reflexivity|]. cbn [filter]. rewrite cnt_cons. destruct (box_empty b) eqn:Eb; cbn [negb].
  - rewrite IH, box_empty_zero; auto; [lra|]. now apply (real_box_good vs).
  - now rewrite cnt_cons, IH.
Qed.

Lemma minus_box_spec vs E b : vs <> [] -> real_event vs E -> real_box vs b -> real_event vs (minus_box E b) /\
  forall x, cnt (minus_box E b) x = cnt E x * (1 - ind (in_box b x)).
Proof.
  intros Hv HE (Nd & Hk & Hr).
  assert (Hb : forall vA, In vA b -> In (fst vA) vs /\ real_set (snd vA)).
  { intros vA H. rewrite Forall_forall in Hr. split; [apply Hk; now apply in_map|now apply Hr]. }
  assert (K : real_event vs (flat_map (fun a => box_minus a b) E) /\ forall x, cnt (flat_map (fun a => box_minus a b) E) x = cnt E x * (1 - ind (in_box b x))).
  { induction HE as [|a E Ha _ [IH1 IH2]]; [split; [constructor|intros x; unfold cnt; cbn; lra]|]. cbn [flat_map].
    destruct (box_minus_spec vs b a Hb Ha) as [K1 K2]. split; [apply Forall_app; auto|]. intros x. rewrite cnt_app, K2, IH2, cnt_cons.
    destruct (in_box a x), (in_box b x); cbn [andb negb ind]; lra. }
  destruct K as [K1 K2]. split.
  - apply Forall_forall. intros c Hc. apply filter_In in Hc as [Hc _]. unfold real_event in K1. rewrite Forall_forall in K1. now apply K1.
  - intros x. unfold minus_box. rewrite (cnt_filter vs); auto.
Qed.

Lemma event_minus_spec vs F : forall E, vs <> [] -> real_event vs E -> real_event vs F -> real_event vs (event_minus E F) /\
  forall x, cnt (event_minus E F) x = cnt E x * (1 - ind (in_event F x)).
Proof.
  induction F as [|b F IH]; intros E Hv HE HF; [split; [exact HE|intros x; change (in_event [] x) with false; unfold event_minus; cbn [fold_left ind]; ring]|]. inversion HF as [|? ? Hb HF']; subst.
  unfold event_minus. cbn [fold_left]. fold (event_minus (minus_box E b) F). destruct (minus_box_spec vs E b Hv HE Hb) as [K1 K2].
  destruct (IH (minus_box E b) Hv K1 HF') as [J1 J2]. split; [exact J1|]. intros x. rewrite J2, K2.
  change (in_event (b :: F) x) with (in_box b x || in_event F x). destruct (in_box b x), (in_event F x); cbn; lra.
Qed.

Lemma event_minus_tiles vs E F X : vs <> [] -> real_event vs E -> real_event vs F -> tiles E X -> real_event vs (event_minus E F) /\
  tiles (event_minus E F) (fun x => X x && negb (in_event F x)).
Proof.
  intros Hv HE HF HX. destruct (event_minus_spec vs F E Hv HE HF) as [K1 K2]. split; [exact K1|]. intros x. rewrite K2, HX.
  destruct (X x), (in_event F x); cbn; lra.
Qed.

Lemma event_or_tiles vs E F X Y : vs <> [] -> real_event vs E -> real_event vs F -> tiles E X -> tiles F Y -> real_event vs (event_or E F) /\
  tiles (event_or E F) (fun x => X x || Y x).
Proof.
  intros Hv HE HF HX HY. destruct (event_minus_spec vs E F Hv HF HE) as [K1 K2]. split; [apply Forall_app; auto|]. intros x.
  unfold event_or. rewrite cnt_app, K2, HX, HY, (tiles_in E X x HX). destruct (X x), (Y x); cbn; lra.
Qed.

Lemma tiles_nil : tiles [] (fun _ => false).
Proof. intros x. reflexivity. Qed.
Lemma tiles_one b : tiles [b] (in_box b).
Proof. intros x. unfold cnt. cbn. lra. Qed.

Lemma make_disjoint_tiles vs E : vs <> [] -> real_event vs E -> real_event vs (make_disjoint E) /\ tiles (make_disjoint E) (in_event E).
Proof.
  intros Hv HE. unfold make_disjoint.
  assert (K : forall acc X, real_event vs acc -> tiles acc X -> real_event vs (fold_left (fun acc b => event_or acc [b]) E acc) /\
    tiles (fold_left (fun acc b => event_or acc [b]) E acc) (fun x => X x || in_event E x)).
  { induction HE as [|b E Hb _ IH]; intros acc X Ha HX; [split; [exact Ha|intros x; rewrite HX; cbn; now rewrite orb_false_r]|].
    cbn [fold_left]. destruct (event_or_tiles vs acc [b] X (in_box b)) as [K1 K2]; auto; [repeat constructor; apply Hb|apply tiles_one|].
    destruct (IH _ _ K1 K2) as [J1 J2]. split; [exact J1|]. intros x. rewrite J2. change (in_event (b :: E) x) with (in_box b x || in_event E x).
    now rewrite orb_assoc. }
  destruct (K [] (fun _ => false)) as [K1 K2]; [constructor|exact tiles_nil|]. split; [exact K1|exact K2].
Qed.

(** All boxes of the results are non-empty. *)
Definition solid (E : event) : Prop := Forall (fun b => box_empty b = false) E.

Lemma minus_box_solid E b : solid (minus_box E b).
Proof. apply Forall_forall. intros c Hc. apply filter_In in Hc as [_ Hc]. now apply negb_true_iff. Qed.

Lemma event_minus_solid F : forall E, solid E -> solid (event_minus E F).
Proof. induction F as [|b F IH]; intros E HE; [exact HE|]. apply (IH (minus_box E b)), minus_box_solid. Qed.

Lemma event_or_solid E F : solid E -> solid F -> solid (event_or E F).
Proof. intros HE HF. apply Forall_app. split; [exact HE|now apply event_minus_solid]. Qed.

Lemma make_disjoint_solid E : solid E -> solid (make_disjoint E).
Proof.
  intros HE. unfold make_disjoint. assert (K : forall acc, solid acc -> solid (fold_left (fun acc b => event_or acc [b]) E acc)).
  { induction HE as [|b E Hb _ IH]; intros acc Ha; [exact Ha|]. apply IH. apply event_or_solid; [exact Ha|repeat constructor; exact Hb]. }
  apply K. constructor.
Qed.

(** ** A box as a simple event *)

Lemma box_get_In b v A : NoDup (map fst b) -> In (v, A) b -> box_get b v = Some A.
Proof.
  intros Nd. unfold box_get. induction b as [|[w B] b IH]; intros H; [destruct H|]. cbn [find fst]. inversion Nd as [|? ? N1 N2]; subst.
  destruct (Nat.eqb_spec w v) as [->|N].
  - destruct H as [H|H]; [now inversion H|]. exfalso. apply N1. now apply (in_map fst) in H.
  - destruct H as [H|H]; [congruence|now apply IH].
Qed.

Lemma box_get_some b v A : box_get b v = Some A -> In (v, A) b.
Proof.
  unfold box_get. destruct (find _ b) as [[w B]|] eqn:E; [|discriminate]. intros H. injection H as <-.
  apply find_some in E as [E1 E2]. apply Nat.eqb_eq in E2. cbn in E2. now subst.
Qed.

Lemma assign_real vs b v : real_box vs b -> In v vs -> exists A, In (v, EInt A) b /\ assign b v = EInt A /\ interval_ok A.
Proof.
  intros (Nd & Hk & Hr) Hv. apply Hk in Hv. apply in_map_iff in Hv as ([w B] & E & Hin). cbn in E. subst w.
  rewrite Forall_forall in Hr. destruct (Hr _ Hin) as (A & EA & HA). cbn in EA. subst B. exists A. split; [exact Hin|]. split; [|exact HA].
  unfold assign. now rewrite (box_get_In b v _ Nd Hin).
Qed.

Lemma in_box_assign vs b x : real_box vs b -> in_box b x = forallb (fun v => in_evset (assign b v) (x v)) vs.
Proof.
  intros (Nd & Hk & Hr). apply eq_true_iff_eq. unfold in_box. rewrite !forallb_forall. split.
  - intros H v Hv. destruct (assign_real vs b v (conj Nd (conj Hk Hr)) Hv) as (A & Hin & -> & _). exact (H _ Hin).
  - intros H [v A] Hin. cbn [fst snd]. assert (Hv : In v vs) by (apply Hk; now apply (in_map fst) in Hin). specialize (H v Hv).
    unfold assign in H. now rewrite (box_get_In b v A Nd Hin) in H.
Qed.

Lemma assign_nonempty vs b v A : real_box vs b -> box_empty b = false -> In v vs -> assign b v = EInt A -> A <> [].
Proof.
  intros Hb He Hv HA ->. destruct (assign_real vs b v Hb Hv) as (A & Hin & E & _). rewrite HA in E. injection E as <-.
  unfold box_empty in He. destruct b as [|p b]; [destruct Hin|]. assert (existsb (fun vA => evset_empty (snd vA)) (p :: b) = true); [|congruence].
  apply existsb_exists. exists (v, EInt []). auto.
Qed.
