(** * Properties C23, C24, C25: determinism, support and mode *)
From Coq Require Import List Arith Bool Lia Reals Lra ZArith Sorting.Sorted.
From Verif Require Import Num Graph GraphFacts Spec SpecFacts Circuit EvalFacts VarFacts Interval GaussInt Dist DistFacts
  TreeProb TreeLocal LeafCond PropertiesQuery PropertiesProb PropertiesSimplify Support SupportFacts ModeFacts.
Import ListNotations.
Local Open Scope R_scope.

(** What the code answers to [likelihood] at the point [x], after any earlier queries. *)
Definition likelihood_at (g : graph dist) (x : nat -> R) (L : num) : Prop :=
  forall st, exists vars ll st', circuit_variables dist_vars g = Some vars /\
    log_likelihood dist_vars dist_ll g (map x vars) st = Some (ll, st') /\ nexp ll = L.

Lemma likelihood_at_lik g t x : layered_circuit g t -> smooth dist_vars t -> likelihood_at g x (lik t x).
Proof.
  intros (Hwf & Hlt & r & Hr & Hg & Hu) Hs st.
  destruct (log_likelihood_correct dist_vars dist_ll g r t x st) as (vars & H1 & _ & _ & ll & st' & H2 & H3); auto.
  exists vars, ll, st'. split; [auto|split; [exact H2|exact H3]].
Qed.

Lemma likelihood_at_det g t x L : layered_circuit g t -> smooth dist_vars t -> likelihood_at g x L -> L = lik t x.
Proof.
  intros Hl Hs H. destruct (H empty_store) as (vars & ll & s & H1 & H2 & H3).
  destruct (likelihood_at_lik g t x Hl Hs empty_store) as (vars' & ll' & s' & H1' & H2' & H3'). congruence.
Qed.

(** ** C23 *)

(** If the check answers True, then at every point at most one child of each sum unit has positive likelihood ([lik] is the
    value C01 gives to the likelihood of a subcircuit), for every layered circuit without childless products, whatever earlier
    queries left behind. *)
Theorem C23_deterministic g t st st' : layered_circuit g t -> products_nonempty t -> all_leaves dist_ok t ->
  is_deterministic g st = Some (true, st') -> exclusive t.
Proof.
  intros (Hwf & Hlt & r & Hr & Hg & Hu) Hp Hok Hd. apply disjoint_exclusive; auto; [eapply unfolds_sums_nonempty; eauto|].
  eapply is_deterministic_sound; eauto.
Qed.

(** The same for the units of the circuit: two different children of a sum unit, by position. *)
Theorem C23_units g t r u ts st st' : layered_circuit g t -> products_nonempty t -> all_leaves dist_ok t ->
  is_deterministic g st = Some (true, st') -> root g = Some r -> reach g r u -> unfolds g u (PSum ts) ->
  forall i j a b x, i <> j -> nth_error ts i = Some a -> nth_error ts j = Some b ->
  ~ (positive (lik (snd a) x) /\ positive (lik (snd b) x)).
Proof.
  intros Hl Hp Hok Hd Hr Hu Hts. assert (Hex := C23_deterministic g t st st' Hl Hp Hok Hd).
  destruct Hl as (Hwf & Hlt & r' & Hr' & Hg & Hut). assert (r' = r) as -> by congruence.
  assert (Hh : hereditary exclusive) by (split; intros l H; simpl in H; [destruct H as [_ H]|]; now apply fold_and_Forall in H).
  destruct (reach_hereditary exclusive g r t u) as (t' & Ht' & He); auto.
  assert (t' = PSum ts) as -> by (eapply unfolds_det; eauto). apply He.
Qed.

(** The check always answers, and it answers True exactly when no two children of a sum unit have intersecting supports. *)
Theorem C23_check g t st : layered_circuit g t -> acyclic g -> products_nonempty t ->
  exists b st', is_deterministic g st = Some (b, st') /\ (b = true <-> disjoint_supports t).
Proof. intros (Hwf & Hlt & r & Hr & Hg & Hu) Hac Hp. eapply is_deterministic_correct; eauto. Qed.

(** *** The check is complete: a circuit whose children exclude each other is recognised *)
Local Open Scope nat_scope.
Definition box_distinct (b : box) : Prop := NoDup (map fst b).
Definition event_distinct (E : event) : Prop := Forall box_distinct E.

Lemma constrain_vars v A b w : In w (map fst (constrain v A b)) <-> w = v \/ In w (map fst b).
Proof.
  induction b as [|[u B] b IH]; cbn [constrain map fst In]; [intuition congruence|]. destruct (Nat.eqb_spec u v) as [->|H]; cbn [map fst In]; [intuition congruence|].
  rewrite IH. intuition congruence.
Qed.

Lemma constrain_distinct v A b : box_distinct b -> box_distinct (constrain v A b).
Proof.
  unfold box_distinct. induction b as [|[u B] b IH]; cbn [constrain map fst]; intros H; [repeat constructor; intros []|]. inversion H as [|? ? H1 H2]; subst.
  destruct (Nat.eqb_spec u v) as [->|Hne]; cbn [map fst]; constructor; auto. rewrite constrain_vars. intros [X|X]; congruence.
Qed.

Lemma box_inter_distinct b : forall a, box_distinct a -> box_distinct (box_inter a b).
Proof. unfold box_inter. induction b as [|vA b IH]; intros a Ha; cbn [fold_left]; auto using constrain_distinct. Qed.

Lemma event_inter_distinct E F : event_distinct E -> event_distinct (event_inter E F).
Proof.
  unfold event_distinct. rewrite !Forall_forall. intros HE k Hk. apply filter_In in Hk. destruct Hk as [Hk _]. apply in_flat_map in Hk. destruct Hk as (a & Ha & Hk).
  apply in_map_iff in Hk. destruct Hk as (b & <- & _). apply box_inter_distinct. auto.
Qed.

Lemma tsupp_distinct t E : tsupp t = Some E -> event_distinct E.
Proof.
  unfold tsupp. revert E. induction t as [d|l IH|l IH] using pc_ind'; intros E HE.
  - cbn [tev] in HE. injection HE as <-. repeat constructor. intros [].
  - cbn [tev] in HE. destruct (mapM _ l) as [vs|] eqn:Em; [|discriminate]. apply mapM_Forall2 in Em.
    assert (G : Forall event_distinct (map snd vs)).
    { clear HE. revert IH. induction Em as [|wt p l vs H1 H2 IHF]; intros IH; cbn [map]; constructor; inversion IH; subst; auto.
      cbn beta in H1. destruct (tev _ _ _ (snd wt)) as [F|] eqn:EF; [|discriminate]. injection H1 as <-. cbn [snd]. auto. }
    destruct vs as [|p vs]; [discriminate|]. cbn [sum_support] in HE. injection HE as <-. cbn [map] in G. inversion G as [|? ? G1 G2]; subst. clear -G1 G2.
    revert G1. generalize (snd p). induction G2 as [|F l HF G2 IH]; cbn [fold_left]; auto. intros E HE. apply IH. apply Forall_app. auto.
  - cbn [tev] in HE. destruct (mapM _ l) as [vs|] eqn:Em; [|discriminate]. apply mapM_Forall2 in Em.
    destruct vs as [|E0 vs]; [discriminate|]. cbn [prod_support] in HE. injection HE as <-. inversion Em as [|t ? l' ? H1 H2]; subst. inversion IH as [|? ? I1 I2]; subst. specialize (I1 _ H1).
    clear -I1. revert E0 I1. induction vs as [|F vs IH]; intros E0 H; cbn [fold_left]; auto using event_inter_distinct.
Qed.

Lemma evset_point A : evset_good A -> evset_empty A = false -> exists x, in_evset A x = true.
Proof.
  destruct A as [[|i A]|[|k l]]; cbn [evset_good evset_empty in_evset]; intros H E; try discriminate.
  - inversion H as [|? ? H1 H2]; subst. destruct (sint_ok_point i H1) as (x & Hx). exists x. unfold in_interval. cbn [existsb]. now rewrite Hx.
  - exists (IZR k). cbn [existsb]. destruct (Reqb_spec (IZR k) (IZR k)); auto.
Qed.

Lemma box_point b : Forall (fun vA => evset_good (snd vA)) b -> box_distinct b -> existsb (fun vA => evset_empty (snd vA)) b = false -> exists x, in_box b x = true.
Proof.
  unfold box_distinct. induction b as [|[v A] b IH]; intros HG HN HE; [exists (fun _ => 0%R); reflexivity|]. inversion HG as [|? ? G1 G2]; subst. cbn [map fst] in HN. inversion HN as [|? ? N1 N2]; subst.
  cbn [existsb snd] in HE. apply orb_false_iff in HE. destruct HE as [E1 E2]. destruct (evset_point A G1 E1) as (p & Hp). destruct (IH G2 N2 E2) as (x & Hx).
  exists (fun w => if w =? v then p else x w). unfold in_box in *. cbn [forallb fst snd]. rewrite Nat.eqb_refl, Hp. cbn [andb]. rewrite forallb_forall in *. intros q Hq.
  destruct (Nat.eqb_spec (fst q) v) as [X|_]; [|now apply Hx]. exfalso. apply N1. rewrite <- X. now apply in_map.
Qed.

Lemma meeting_point E F : event_good E -> event_good F -> event_distinct E -> event_inter E F <> [] -> exists x, in_event E x = true /\ in_event F x = true.
Proof.
  intros GE GF DE H. assert (GI := event_inter_good E F GE GF). assert (DI := event_inter_distinct E F DE). destruct (event_inter E F) as [|b I] eqn:EI; [congruence|].
  inversion GI as [|? ? [B1 B2] _]; subst. inversion DI as [|? ? D1 _]; subst.
  assert (Hb : In b (event_inter E F)) by (rewrite EI; now left). apply filter_In in Hb. destruct Hb as [_ Hb]. apply negb_true_iff in Hb.
  destruct (box_point b) as (x & Hx); auto. { destruct b; [congruence|exact Hb]. }
  exists x. apply andb_true_iff. rewrite <- in_event_inter by auto. rewrite EI. unfold in_event. cbn [existsb]. now rewrite Hx.
Qed.

Lemma exclusive_disjoint t : all_leaves dist_ok t -> all_leaves cap_ok t -> all_sums (Forall lw_finite) t -> exclusive t -> disjoint_supports t.
Proof.
  induction t as [d|l IH|l IH] using pc_ind'; auto.
  - cbn [all_leaves all_sums disjoint_supports exclusive]. rewrite !fold_and_Forall. intros Hok Hc [_ Hw] [He Hes]. rewrite !Forall_forall in *. split; [|auto].
    intros i j a b E F Hij Ha Hb HE HF. destruct (event_inter E F) as [|k K] eqn:EI; auto. exfalso.
    assert (Ia := nth_error_In _ _ Ha). assert (Ib := nth_error_In _ _ Hb).
    destruct (tsupp_spec (snd a) E) as [GE _]; auto. destruct (tsupp_spec (snd b) F) as [GF _]; auto.
    destruct (meeting_point E F GE GF (tsupp_distinct _ _ HE)) as (x & X1 & X2); [congruence|].
    assert (LW : forall wt, In wt l -> all_sums (Forall lw_ok) (snd wt)).
    { intros wt Hin. eapply all_sums_impl; [|exact (Hw wt Hin)]. intros ws. apply Forall_impl. intros []; simpl; tauto. }
    apply (He i j a b x); auto; [lia|]. rewrite !lik_R by auto. cbn [positive]. split; eapply tsupp_complete; eauto.
  - cbn [all_leaves all_sums disjoint_supports exclusive]. rewrite !fold_and_Forall, !Forall_forall in *. auto.
Qed.
Local Open Scope R_scope.

(** Nothing is rejected that is deterministic: if at every point at most one child of each sum unit has positive likelihood, the check
    answers True, provided that densities and weights are finite. *)
Theorem C23_complete g t st : layered_circuit g t -> acyclic g -> products_nonempty t -> all_leaves dist_ok t -> all_leaves cap_ok t ->
  all_sums (Forall lw_finite) t -> exclusive t -> exists st', is_deterministic g st = Some (true, st').
Proof.
  intros Hl Ha Hp Hok Hc Hw He. destruct (C23_check g t st Hl Ha Hp) as (b & st' & E & Hb). exists st'. rewrite E. repeat f_equal. apply Hb. now apply exclusive_disjoint.
Qed.

(** ** C24 *)

(** [E] contains exactly the points of positive likelihood. *)
Definition is_support_of (g : graph dist) (E : event) : Prop :=
  forall x L, likelihood_at g x L -> (in_event E x = true <-> positive L).

Definition C24_full : Prop := forall g t st, layered_circuit g t -> smooth dist_vars t -> decomposable dist_vars t ->
  products_nonempty t -> all_leaves dist_ok t -> all_sums (Forall lw_finite) t ->
  exists E st', circuit_support g st = Some (E, st') /\ is_support_of g E.

(** No point of positive likelihood is missing: for all leaves and weights. *)
Theorem C24_support_contains g t st : layered_circuit g t -> smooth dist_vars t -> products_nonempty t -> all_leaves dist_ok t ->
  exists E st', circuit_support g st = Some (E, st') /\ forall x L, likelihood_at g x L -> positive L -> in_event E x = true.
Proof.
  intros Hl Hs Hp Hok. assert (Hl' := Hl). destruct Hl' as (Hwf & Hlt & r & Hr & Hg & Hu).
  destruct (tsupp_defined t) as [E HE]; auto; [eapply unfolds_sums_nonempty; eauto|].
  destruct (circuit_support_correct g r t st E) as (st' & H1 & _); auto. exists E, st'. split; auto.
  intros x L HL Hpos. rewrite (likelihood_at_det g t x L) in Hpos by auto. destruct (tsupp_spec t E) as [_ H]; auto.
Qed.

(** Both directions when every Dirac leaf has a finite density cap.  Missing: Dirac leaves with the default cap of
    infinity; there the claim is false, see [C24_support_refuted]. *)
Theorem C24_support_partial g t st : layered_circuit g t -> smooth dist_vars t -> products_nonempty t ->
  all_leaves dist_ok t -> all_leaves cap_ok t -> all_sums (Forall lw_finite) t ->
  exists E st', circuit_support g st = Some (E, st') /\ is_support_of g E.
Proof.
  intros Hl Hs Hp Hok Hc Hw. assert (Hl' := Hl). destruct Hl' as (Hwf & Hlt & r & Hr & Hg & Hu).
  destruct (tsupp_defined t) as [E HE]; auto; [eapply unfolds_sums_nonempty; eauto|].
  destruct (circuit_support_correct g r t st E) as (st' & H1 & _); auto. exists E, st'. split; auto.
  intros x L HL. rewrite (likelihood_at_det g t x L) by auto. split.
  - intros Hx. rewrite lik_R; auto.
    + simpl. eapply tsupp_complete; eauto.
    + eapply all_sums_impl; [|exact Hw]. intros l. apply Forall_impl. intros []; simpl; tauto.
  - destruct (tsupp_spec t E) as [_ H]; auto.
Qed.

(** ** C25 *)

(** [m] bounds the likelihood of every point and is attained on all of [E]. *)
Definition is_mode_of (g : graph dist) (E : event) (m : num) : Prop :=
  forall x L, likelihood_at g x L -> nle L m /\ (in_event E x = true -> L = m).

Definition C25_full : Prop := forall eps g t st st1 st2, 0 < eps -> layered_circuit g t -> smooth dist_vars t -> decomposable dist_vars t ->
  products_nonempty t -> all_leaves dist_ok t -> all_sums (Forall lw_ok) t -> is_deterministic g st = Some (true, st1) ->
  exists E m, mode eps g st st2 = Some (E, m) /\ is_mode_of g E m /\ exists x, in_event E x = true.

(** Proved part: every Dirac leaf has a finite density cap and every truncated Gaussian attains its maximum.  Missing:
    the default cap of infinity, where the claim is false ([C25_mode_refuted]), and truncated Gaussians whose location
    lies beyond an open end of the interval: over the reals they have no maximum, the code returns the neighbouring float. *)
Theorem C25_mode_partial eps g t st st1 st2 : layered_circuit g t -> smooth dist_vars t -> decomposable dist_vars t ->
  products_nonempty t -> all_leaves dist_ok t -> all_leaves cap_ok t -> all_leaves mode_ok t -> all_sums (Forall lw_ok) t ->
  is_deterministic g st = Some (true, st1) ->
  exists E m, mode eps g st st2 = Some (E, m) /\ is_mode_of g E m /\ exists x, in_event E x = true.
Proof.
  intros Hl Hs Hdec Hp Hok Hc Hm Hw Hd. assert (Hex := C23_deterministic g t st st1 Hl Hp Hok Hd).
  assert (Hl' := Hl). destruct Hl' as (Hwf & Hlt & r & Hr & Hg & Hu). assert (Hsn := unfolds_sums_nonempty g r t Hu).
  destruct (tmode_spec eps t) as ([E m] & T1 & (T2 & T3 & T4 & T5)); auto. destruct (tmode_local eps t) with (p := (E, m)) as [_ Hne]; auto.
  exists E, (nexp m). split; [|split; [|exact Hne]].
  - unfold mode, log_mode. rewrite Hd.
    destruct (run_pass_correct (dist_log_mode eps) sum_log_mode prod_log_mode g r t (E, m) st2) as (s & H1 & _); auto. now rewrite H1.
  - intros x L HL. rewrite (likelihood_at_det g t x L) by auto. rewrite lik_R by auto. cbn [fst snd] in *.
    assert (Em : nexp m = Fin (wexp m)) by (destruct m; simpl in *; tauto). rewrite Em. split.
    + destruct (T4 x) as [H|H]; [right; exact H|left; now rewrite H].
    + intros Hx. f_equal. auto.
Qed.

(** *** Density caps of infinity *)
(** A Dirac leaf may have the default cap of infinity. *)
Definition cap_positive (d : dist) : Prop := match d with DDirac _ _ cap => cap = PInf \/ exists c, cap = Fin c /\ 0 < c | _ => True end.
Definition large (m : num) : Prop := match m with Fin _ | PInf => True | _ => False end.

Lemma leaf_large eps d : dist_ok d -> cap_positive d -> mode_ok d -> exists A m, mode1 eps d = Some (A, m) /\ large m /\ (cap_ok d \/ m = PInf).
Proof.
  intros Hok Hc Hm. assert (D : (exists v x, d = DDirac v x PInf) \/ cap_ok d).
  { destruct d; try (right; exact I). destruct Hc as [->|Hc]; [left; eauto|right; exact Hc]. }
  destruct D as [(v & x & ->)|C]; [cbn [mode1]; do 2 eexists; split; [reflexivity|]; cbn; auto|].
  destruct (leaf_mode_exists eps d Hok C Hm) as (A & m & E & (L1 & _ & L3 & _ & _)). exists A, m. split; [exact E|]. split; [|now left].
  assert (P : exists x, 0 < density d x).
  { assert (K : forall mk p, dist_ok (mk p) -> (mk = DSym (dvar d) \/ mk = DInt (dvar d)) -> exists x, 0 < density (mk p) x).
    { intros mk p O M. assert (O' : dict_ok p /\ Rsum (vals p) = 1) by (destruct M as [-> | ->]; exact O). destruct O' as [O1 O2].
      destruct (dmax_spec p O1 O2) as (y & _ & Hy & Hmax & k & Hk). exists (IZR k).
      assert (Py : 0 < y).
      { destruct Hy as [Hy|Hy]; [exact Hy|]. exfalso. subst y. assert (X : Rsum (vals p) <= Rsum (map (fun _ => 0) p)).
        { unfold vals. apply Rsum_le. intros [k' q] Hq. cbn [snd]. eauto. }
        rewrite Rsum_const in X. lra. }
      destruct M as [-> | ->]; unfold density; cbn [ll1]; rewrite (fold_ll_in p k y) by (auto; apply O1); rewrite nexp_nlog by (left; exact Py); exact Py. }
    destruct d as [v i|v l c|v mu s|v i mu s|v p|v p]; try (apply (K _ p); cbn; auto; fail).
    - destruct (cont_support (DUnif v i) I Hok) as (j & E1 & O & _). destruct (sint_ok_point j O) as (x & Hx). exists x. refine (leaf_support_complete _ x Hok C _). rewrite E1. cbn [in_evset in_interval existsb]. now rewrite Hx.
    - exists l. apply leaf_support_complete; auto. cbn [support1 in_evset]. now apply in_isingleton.
    - destruct (cont_support (DGauss v mu s) I Hok) as (j & E1 & O & _). destruct (sint_ok_point j O) as (x & Hx). exists x. refine (leaf_support_complete _ x Hok C _). rewrite E1. cbn [in_evset in_interval existsb]. now rewrite Hx.
    - destruct (cont_support (DTGauss v i mu s) I Hok) as (j & E1 & O & _). destruct (sint_ok_point j O) as (x & Hx). exists x. refine (leaf_support_complete _ x Hok C _). rewrite E1. cbn [in_evset in_interval existsb]. now rewrite Hx. }
  destruct P as (x & P). specialize (L3 x). destruct m; cbn in *; auto; lra.
Qed.

Lemma pymax_large l : Forall large l -> l <> [] -> exists m, pymax l = Some m /\ In m l /\ large m /\ (In PInf l -> m = PInf).
Proof.
  destruct l as [|a l]; [congruence|]. intros Hw _. inversion Hw as [|? ? Ha Hl]; subst. eexists. split; [reflexivity|]. clear Hw.
  revert a Ha. induction Hl as [|b l Hb Hl IH]; intros a Ha; cbn [fold_left]; [repeat split; auto; [now left|intros [->|[]]; reflexivity]|].
  assert (N : large (if flt a b then b else a)) by (destruct (flt a b); auto). destruct (IH _ N) as (I1 & I2 & I3). split; [|split; [exact I2|]].
  - destruct (flt a b); destruct I1; cbn; auto.
  - intros H. apply I3. destruct H as [->|[->|H]]; [|left; destruct a; cbn in *; tauto|now right]. left. destruct b; cbn in *; tauto.
Qed.

Lemma feq_large m : large m -> feq m m = true.
Proof. destruct m; cbn; try tauto. destruct (Reqb_spec r r); auto. Qed.

Lemma tmode_large eps t : sums_nonempty t -> products_nonempty t -> all_leaves dist_ok t -> all_leaves cap_positive t -> all_leaves mode_ok t ->
  all_sums (Forall lw_finite) t -> exists E m, tmode eps t = Some (E, m) /\ large m /\ (all_leaves cap_ok t \/ m = PInf).
Proof.
  unfold tmode. induction t as [d|l IH|l IH] using pc_ind'; cbn [sums_nonempty products_nonempty all_leaves all_sums]; rewrite ?Forall_map_id, ?fold_and_Forall.
  - intros _ _ Hok Hc Hm _. destruct (leaf_large eps d Hok Hc Hm) as (A & m & E & H). cbn [tev]. unfold dist_log_mode. rewrite E. eauto.
  - intros [Hne Hs] Hp Hok Hc Hm [Hw Hws].
    assert (H : exists vs, mapM (fun wt => match tev (dist_log_mode eps) sum_log_mode prod_log_mode (snd wt) with Some v => Some (fst wt, v) | None => None end) l = Some vs /\
      Forall2 (fun wt v => large (nadd (fst v) (snd (snd v))) /\ (all_leaves cap_ok (snd wt) \/ nadd (fst v) (snd (snd v)) = PInf)) l vs).
    { clear Hne. induction IH as [|[w t] l H _ IHl]; [exists []; split; constructor|]. cbn [map] in Hw.
      inversion Hs; subst. inversion Hp; subst. inversion Hok; subst. inversion Hc; subst. inversion Hm; subst. inversion Hws; subst. inversion Hw as [|? ? W1 W2]; subst.
      cbn [fst snd] in *. destruct H as (E & m & P1 & P2 & P3); auto. destruct IHl as (vs & V1 & V2); auto.
      exists ((w, (E, m)) :: vs). unfold mapM in *. cbn [fst snd]. rewrite P1, V1. split; [reflexivity|]. constructor; auto. cbn [fst snd]. destruct w; cbn in W1; try tauto.
      split; [destruct m; cbn in *; tauto|]. destruct P3 as [P3|P3]; [now left|right; now rewrite P3]. }
    destruct H as (vs & H1 & H2). cbn [tev]. rewrite H1. unfold sum_log_mode. set (ms := map (fun p : num * (event * num) => nadd (fst p) (snd (snd p))) vs).
    assert (Hms : Forall large ms) by (unfold ms; apply Forall_map; clear -H2; induction H2; constructor; tauto).
    destruct (pymax_large ms Hms) as (m & Em & Im & Lm & Pm). { unfold ms. intros X. apply map_eq_nil in X. subst vs. inversion H2; subst. congruence. }
    rewrite Em. unfold ms in Im. apply in_map_iff in Im. destruct Im as (v & Ev & Iv).
    destruct (map _ (filter _ vs)) as [|E Es] eqn:F.
    { exfalso. apply map_eq_nil in F. assert (In v (filter (fun p : num * (event * num) => feq (nadd (fst p) (snd (snd p))) m) vs)) as X by (apply filter_In; split; [exact Iv|]; rewrite Ev; now apply feq_large). rewrite F in X. destruct X. }
    do 2 eexists. split; [reflexivity|]. split; [exact Lm|].
    assert (D : m = PInf \/ m <> PInf) by (destruct m; auto; right; discriminate). destruct D as [D|D]; [now right|left]. assert (X : ~ In PInf ms) by auto. cbn [all_leaves]. apply fold_and_Forall, Forall_forall. clear -H2 X. unfold ms in X. induction H2 as [|wt v l vs [_ H] H2 IH]; [intros x []|]. intros x [<-|Hx].
    + destruct H as [H|H]; [exact H|]. destruct X. cbn. now left.
    + apply IH; auto. intros Y. apply X. cbn. now right.
  - intros Hs [Hne Hp] Hok Hc Hm Hws.
    assert (H : exists vs, mapM (tev (dist_log_mode eps) sum_log_mode prod_log_mode) l = Some vs /\ Forall2 (fun t v => large (snd v) /\ (all_leaves cap_ok t \/ snd v = PInf)) l vs).
    { clear Hne. induction IH as [|t l H _ IHl]; [exists []; split; constructor|].
      inversion Hs; subst. inversion Hp; subst. inversion Hok; subst. inversion Hc; subst. inversion Hm; subst. inversion Hws; subst.
      destruct H as (E & m & P1 & P2 & P3); auto. destruct IHl as (vs & V1 & V2); auto.
      exists ((E, m) :: vs). unfold mapM in *. rewrite P1, V1. split; [reflexivity|]. constructor; auto. }
    destruct H as (vs & H1 & H2). cbn [tev]. rewrite H1. inversion H2 as [|t v l' vs' [V1 V2] H3]; subst; [congruence|]. cbn [prod_log_mode]. do 2 eexists. split; [reflexivity|].
    clear -V1 V2 H3. assert (G : forall m l vs, Forall2 (fun t (v : event * num) => large (snd v) /\ (all_leaves cap_ok t \/ snd v = PInf)) l vs -> large m ->
      large (fold_left nadd (map snd vs) m) /\ (m = PInf \/ (exists v, In v vs /\ snd v = PInf) -> fold_left nadd (map snd vs) m = PInf) /\ ((exists v, In v vs /\ snd v = PInf) \/ Forall (all_leaves cap_ok) l)).
    { clear. intros m l vs HF. revert m. induction HF as [|t v l vs [H1 H2] HF IH]; intros m Lm; cbn [map fold_left].
      - split; [exact Lm|]. split; [intros [H|(v & [] & _)]; exact H|]. right. constructor.
      - assert (L' : large (nadd m (snd v))) by (destruct m, (snd v); cbn in *; tauto). destruct (IH _ L') as (I1 & I2 & I3). split; [exact I1|]. split.
        + intros X. apply I2. destruct X as [->|(v' & [<-|Hv] & E)]; [left; destruct (snd v); cbn in *; tauto|left; rewrite E; destruct m; cbn in *; tauto|right; eauto].
        + destruct I3 as [(v' & A1 & A2)|I3]; [left; exists v'; split; [now right|exact A2]|]. destruct H2 as [H2|H2]; [right; now constructor|left; exists v; split; [now left|exact H2]]. }
    destruct (G (snd v) l' vs' H3 V1) as (G1 & G2 & G3). split; [exact G1|].
    destruct V2 as [V2|V2]; [|right; apply G2; now left]. destruct G3 as [G3|G3]; [right; apply G2; now right|left; cbn [all_leaves]; apply fold_and_Forall; now constructor].
Qed.

(** With caps of infinity the mode is still returned and still bounds every likelihood that is a number; some likelihoods are not, see
    [C25_mode_refuted]. *)
Theorem C25_mode_bound_partial eps g t st st1 st2 : layered_circuit g t -> smooth dist_vars t -> decomposable dist_vars t ->
  products_nonempty t -> all_leaves dist_ok t -> all_leaves cap_positive t -> all_leaves mode_ok t -> all_sums (Forall lw_finite) t ->
  is_deterministic g st = Some (true, st1) ->
  exists E m, mode eps g st st2 = Some (E, m) /\ forall x L, likelihood_at g x L -> L = NaN \/ nle L m.
Proof.
  intros Hl Hs Hdec Hp Hok Hc Hm Hw Hd. assert (Hl' := Hl). destruct Hl' as (Hwf & Hlt & r & Hr & Hg & Hu). assert (Hsn := unfolds_sums_nonempty g r t Hu).
  destruct (tmode_large eps t) as (E & m & T & Lm & [C|P]); auto.
  - destruct (C25_mode_partial eps g t st st1 st2) as (E' & m' & E1 & E2 & _); auto.
    { eapply all_sums_impl; [|exact Hw]. intros l. apply Forall_impl. intros []; simpl; tauto. }
    exists E', m'. split; [exact E1|]. intros x L HL. right. exact (proj1 (E2 x L HL)).
  - exists E, PInf. split; [|intros x L _; destruct L; [now left|right; right; exact I|right; right; exact I|right; left; reflexivity]].
    unfold mode, log_mode. rewrite Hd. destruct (run_pass_correct (dist_log_mode eps) sum_log_mode prod_log_mode g r t (E, m) st2) as (s & H1 & _); auto. rewrite H1. now rewrite P.
Qed.

(** ** The counterexample: a Dirac leaf with the default cap next to a component whose support has another y range *)
Definition spike_tree : pc dist :=
  PSum [(Fin (ln (1/2)), PProd [PLeaf (DDirac 0 0 PInf); PLeaf (DUnif 1 (iclosed 0 1))]);
        (Fin (ln (1/2)), PProd [PLeaf (DUnif 0 (iclosed (-1) 1)); PLeaf (DUnif 1 (iclosed 2 3))])].
Definition spike_graph : graph dist :=
  mkGraph [(0, USum); (1, UProd); (2, UProd); (3, ULeaf (DDirac 0 0%R PInf)); (4, ULeaf (DUnif 1 (iclosed 0%R 1%R)));
           (5, ULeaf (DUnif 0 (iclosed (-1)%R 1%R))); (6, ULeaf (DUnif 1 (iclosed 2%R 3%R)))]%nat
    [mkEdge 0 1 (Some (Fin (ln (1/2)))); mkEdge 0 2 (Some (Fin (ln (1/2))));
     mkEdge 1 3 None; mkEdge 1 4 None; mkEdge 2 5 None; mkEdge 2 6 None]%nat.

Lemma spike_layered : layered_circuit spike_graph spike_tree.
Proof.
  split; [|split].
  - constructor; cbn.
    * repeat constructor; cbn; intuition lia.
    * repeat constructor; cbn; intuition congruence.
    * intros e H. repeat destruct H as [<-|H]; cbn; tauto.
    * intros e H. repeat destruct H as [<-|H]; cbn; tauto.
  - intros e d H. repeat destruct H as [<-|H]; cbn; try discriminate. destruct H.
  - exists 0%nat. split; [reflexivity|]. split.
    * exists (fun u => if u =? 0 then 0 else if u <=? 2 then 1 else 2)%nat. split; [reflexivity|].
      intros e H _. repeat destruct H as [<-|H]; cbn; try reflexivity. destruct H.
    * unfold spike_tree. unf.
Qed.

Lemma spike_acyclic : acyclic spike_graph.
Proof.
  exists (fun u => if u =? 0 then 2 else if u <=? 2 then 1 else 0)%nat. intros e H.
  repeat destruct H as [<-|H]; cbn; try lia. destruct H.
Qed.

Lemma spike_valid : smooth dist_vars spike_tree /\ decomposable dist_vars spike_tree /\ products_nonempty spike_tree /\
  all_leaves dist_ok spike_tree /\ all_sums (Forall lw_finite) spike_tree /\ normalised spike_tree.
Proof.
  split; [cbn; repeat split; auto; intuition|]. split; [cbn; repeat split; auto; intuition; lia|].
  split; [cbn; repeat split; auto; discriminate|]. split; [|split].
  - cbn. repeat split; auto; do 2 eexists; repeat split; auto; lra.
  - cbn. repeat split; auto. repeat constructor.
  - cbn. repeat split; auto; [repeat constructor|]. cbn. rewrite !exp_ln by lra. lra.
Qed.

(** The point (0, 5/2). *)
Definition spike_point : nat -> R := fun v => if (v =? 0)%nat then 0 else 5/2.

Lemma spike_likelihood : lik spike_tree spike_point = NaN.
Proof.
  unfold lik, spike_tree, spike_point. cbn [semN map fst snd dvar Nat.eqb ll1 lo hi iclosed]. unfold in_sint, above, below. cbn [lo hi lc rc iclosed].
  rb; try lra. cbn [andb]. cbn. unfold nscale_inf. tot; try lra; reflexivity.
Qed.

Lemma spike_support : exists E, tsupp spike_tree = Some E /\ in_event E spike_point = true.
Proof.
  eexists. split; [reflexivity|]. cbn. unfold interval_inter, in_sint, sint_inter, above, below, spike_point. cbn. rb; try lra; reflexivity.
Qed.

Theorem C24_support_refuted : ~ C24_full.
Proof.
  intros H. destruct spike_valid as (V1 & V2 & V3 & V4 & V5 & _).
  destruct (H spike_graph spike_tree empty_store spike_layered V1 V2 V3 V4 V5) as (E & st' & HE & Hs).
  destruct spike_layered as (Hwf & Hlt & r & Hr & Hg & Hu). destruct spike_support as (E' & HE' & Hx).
  destruct (circuit_support_correct spike_graph r spike_tree empty_store E') as (s & Hc & _); auto.
  rewrite HE in Hc. injection Hc as -> _.
  specialize (Hs spike_point _ (likelihood_at_lik _ _ _ spike_layered V1)). rewrite spike_likelihood in Hs. simpl in Hs. tauto.
Qed.

Lemma spike_deterministic : exists st', is_deterministic spike_graph empty_store = Some (true, st').
Proof.
  destruct spike_valid as (V1 & V2 & V3 & V4 & V5 & _).
  destruct (C23_check spike_graph spike_tree empty_store spike_layered spike_acyclic V3) as (b & st' & Hb & Hiff).
  assert (Hd : disjoint_supports spike_tree).
  { cbn. repeat split; auto. intros [|[|i]] [|[|j]] a b0 E F Hij Ha Hb' HE HF; try lia; cbn in Ha, Hb'; try (destruct j; discriminate); try discriminate.
    injection Ha as <-. injection Hb' as <-. unfold tsupp in HE, HF. cbn in HE, HF. injection HE as <-. injection HF as <-.
    unfold event_inter. cbn. unfold sint_empty, sint_inter, nmax_lo, nmin_hi, iclosed, isingleton. cbn.
    repeat (rb; try lra; cbn); reflexivity. }
  apply Hiff in Hd. subst b. eauto.
Qed.

Theorem C25_mode_refuted : ~ C25_full.
Proof.
  intros H. destruct spike_valid as (V1 & V2 & V3 & V4 & V5 & _). destruct spike_deterministic as [st1 Hd].
  destruct (H 1 spike_graph spike_tree empty_store st1 empty_store) as (E & m & Hm & Hs & _); auto; [lra|apply spike_layered| |].
  - eapply all_sums_impl; [|exact V5]. intros l. apply Forall_impl. intros []; simpl; tauto.
  - destruct (Hs spike_point _ (likelihood_at_lik _ _ _ spike_layered V1)) as [Hle _]. rewrite spike_likelihood in Hle.
    destruct (Hs (fun v => if (v =? 0)%nat then -1 else 5/2) _ (likelihood_at_lik _ _ _ spike_layered V1)) as [Hle2 _].
    destruct Hle as [<-|[]]. destruct Hle2 as [E2|E2]; [|exact E2 || (destruct (lik _ _); exact E2)].
    revert E2. unfold lik, spike_tree. cbn [semN map fst snd dvar Nat.eqb ll1 lo hi iclosed]. unfold in_sint, above, below. cbn [lo hi lc rc iclosed].
    rb; try lra. cbn [andb]. cbn. unfold nscale_inf. tot; try lra; discriminate.
Qed.

(** Whatever [mode] returns is the mode: it raises rather than answer for a circuit it does not recognise as deterministic. *)
Theorem C25_mode_returned_partial eps g t st st2 E m : layered_circuit g t -> smooth dist_vars t -> decomposable dist_vars t ->
  products_nonempty t -> all_leaves dist_ok t -> all_leaves cap_ok t -> all_leaves mode_ok t -> all_sums (Forall lw_ok) t ->
  mode eps g st st2 = Some (E, m) -> exclusive t /\ is_mode_of g E m /\ exists x, in_event E x = true.
Proof.
  intros Hl Hs Hdec Hp Hok Hc Hm Hw H. assert (H' := H). unfold mode, log_mode in H'.
  destruct (is_deterministic g st) as [[[] st1]|] eqn:Hd; try discriminate H'.
  split; [now apply (C23_deterministic g t st st1)|].
  destruct (C25_mode_partial eps g t st st1 st2) as (E' & m' & E1 & E2); auto. rewrite H in E1. injection E1 as <- <-. exact E2.
Qed.

(** ** A circuit that meets the hypotheses of C23 - C25: a finite spike next to a truncated Gaussian whose mode is an end
    of its interval *)
Definition band_tree : pc dist :=
  PSum [(Fin (ln (1/3)), PProd [PLeaf (DDirac 0 0 (Fin 2)); PLeaf (DUnif 1 (iclosed 0 1))]);
        (Fin (ln (2/3)), PProd [PLeaf (DTGauss 0 (iclosed 1 3) 0 1); PLeaf (DUnif 1 (iclosed_open 0 4))])].
Definition band_graph : graph dist :=
  mkGraph [(0, USum); (1, UProd); (2, UProd); (3, ULeaf (DDirac 0 0%R (Fin 2%R))); (4, ULeaf (DUnif 1 (iclosed 0%R 1%R)));
           (5, ULeaf (DTGauss 0 (iclosed 1%R 3%R) 0%R 1%R)); (6, ULeaf (DUnif 1 (iclosed_open 0%R 4%R)))]%nat
    [mkEdge 0 1 (Some (Fin (ln (1/3)))); mkEdge 0 2 (Some (Fin (ln (2/3))));
     mkEdge 1 3 None; mkEdge 1 4 None; mkEdge 2 5 None; mkEdge 2 6 None]%nat.

Lemma band_layered : layered_circuit band_graph band_tree.
Proof.
  split; [|split].
  - constructor; cbn.
    * repeat constructor; cbn; intuition lia.
    * repeat constructor; cbn; intuition congruence.
    * intros e H. repeat destruct H as [<-|H]; cbn; tauto.
    * intros e H. repeat destruct H as [<-|H]; cbn; tauto.
  - intros e d H. repeat destruct H as [<-|H]; cbn; try discriminate. destruct H.
  - exists 0%nat. split; [reflexivity|]. split.
    * exists (fun u => if u =? 0 then 0 else if u <=? 2 then 1 else 2)%nat. split; [reflexivity|].
      intros e H _. repeat destruct H as [<-|H]; cbn; try reflexivity. destruct H.
    * unfold band_tree. unf.
Qed.

Lemma band_acyclic : acyclic band_graph.
Proof.
  exists (fun u => if u =? 0 then 2 else if u <=? 2 then 1 else 0)%nat. intros e H.
  repeat destruct H as [<-|H]; cbn; try lia. destruct H.
Qed.

Lemma band_valid : smooth dist_vars band_tree /\ decomposable dist_vars band_tree /\ products_nonempty band_tree /\
  all_leaves dist_ok band_tree /\ all_sums (Forall lw_finite) band_tree /\ all_leaves cap_ok band_tree /\ all_leaves mode_ok band_tree.
Proof.
  split; [cbn; repeat split; auto; intuition|]. split; [cbn; repeat split; auto; intuition; lia|].
  split; [cbn; repeat split; auto; discriminate|]. split; [|split; [|split]].
  - cbn. repeat split; auto; try discriminate; try lra; do 2 eexists; repeat split; auto; lra.
  - cbn. repeat split; auto. repeat constructor.
  - cbn. repeat split; auto. exists 2. split; [auto|lra].
  - cbn. repeat split; auto. right. left. exists 1. repeat split; auto. lra.
Qed.

Lemma band_deterministic : exists st', is_deterministic band_graph empty_store = Some (true, st').
Proof.
  destruct band_valid as (V1 & V2 & V3 & V4 & V5 & _).
  destruct (C23_check band_graph band_tree empty_store band_layered band_acyclic V3) as (b & st' & Hb & Hiff).
  assert (Hd : disjoint_supports band_tree).
  { cbn. repeat split; auto. intros [|[|i]] [|[|j]] a b0 E F Hij Ha Hb' HE HF; try lia; cbn in Ha, Hb'; try (destruct j; discriminate); try discriminate.
    injection Ha as <-. injection Hb' as <-. unfold tsupp in HE, HF. cbn in HE, HF. injection HE as <-. injection HF as <-.
    unfold event_inter. cbn. unfold sint_empty, sint_inter, nmax_lo, nmin_hi, iclosed, isingleton, iclosed_open. cbn.
    repeat (rb; try lra; cbn); reflexivity. }
  apply Hiff in Hd. subst b. eauto.
Qed.

Example band_mode : exists E m, mode (1/1000) band_graph empty_store empty_store = Some (E, m) /\ is_mode_of band_graph E m /\
  exists x, in_event E x = true.
Proof.
  destruct band_valid as (V1 & V2 & V3 & V4 & V5 & V6 & V7). destruct band_deterministic as [s Hd].
  eapply C25_mode_partial; eauto using band_layered. eapply all_sums_impl; [|exact V5]. intros l. apply Forall_impl. intros []; simpl; tauto.
Qed.

Example band_support : exists E st', circuit_support band_graph empty_store = Some (E, st') /\ is_support_of band_graph E.
Proof. destruct band_valid as (V1 & V2 & V3 & V4 & V5 & V6 & V7). eapply C24_support_partial; eauto using band_layered. Qed.

(** The circuit of the counterexample meets the hypotheses of the bound. *)
Example spike_bound : exists E m, mode (1/1000) spike_graph empty_store empty_store = Some (E, m) /\ forall x L, likelihood_at spike_graph x L -> L = NaN \/ nle L m.
Proof.
  destruct spike_valid as (V1 & V2 & V3 & V4 & V5 & _). destruct spike_deterministic as [s Hd].
  eapply C25_mode_bound_partial; eauto using spike_layered.
  - cbn. repeat split; auto.
  - cbn. repeat split; auto.
Qed.

Example band_exclusive : exclusive band_tree.
Proof.
  destruct band_valid as (V1 & V2 & V3 & V4 & V5 & V6 & V7). destruct band_deterministic as [s Hd].
  eapply C23_deterministic; eauto using band_layered.
Qed.

(** The hypotheses of [C23_complete] are met by the same circuit. *)
Example band_complete : exists st', is_deterministic band_graph empty_store = Some (true, st').
Proof.
  destruct band_valid as (V1 & V2 & V3 & V4 & V5 & V6 & V7). apply (C23_complete band_graph band_tree); auto using band_layered, band_acyclic, band_exclusive.
Qed.

Print Assumptions C23_deterministic.
Print Assumptions C23_units.
Print Assumptions C23_check.
Print Assumptions C23_complete.
Print Assumptions C24_support_contains.
Print Assumptions C24_support_partial.
Print Assumptions C24_support_refuted.
Print Assumptions C25_mode_partial.
Print Assumptions C25_mode_bound_partial.
Print Assumptions C25_mode_returned_partial.
Print Assumptions C25_mode_refuted.
