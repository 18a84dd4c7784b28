(** * Property C36: discrete leaves as deterministic sum units and back *)
From Coq Require Import List Arith Bool Lia ZArith Reals Lra.
From Verif Require Import Num Graph GraphFacts Spec SpecFacts Circuit EvalFacts VarFacts Interval Dist DistFacts TreeProb
  SimplifyFacts TreeLocal Conditional ConditionalFacts LeafCond PropertiesQuery PropertiesProb PropertiesDist PropertiesMarginal Support SupportFacts ModeFacts
  PropertiesSupport PropertiesCopy Layout Mixture MixtureFacts FromMixture.
Import ListNotations.
Local Open Scope R_scope.
Local Set Bullet Behavior "Strict Subproofs".

(** ** as_deterministic_sum *)

Lemma replaced_circuit g t u d p nx : layered_circuit g t -> node_kind g u = Some (ULeaf d) -> probabilities d = Some p -> dist_ok d ->
  (forall x, In x (node_ids g) -> (x < nx)%nat) ->
  exists g' t', as_deterministic_sum g u nx = Some (g', nx) /\ layered_circuit g' t' /\ same_meaning t t' /\ ~ In u (node_ids g') /\ (root g = Some u -> root g' = Some nx) /\
    unfolds g' nx (PSum (map (fun kq => (nlog (Fin (snd kq)), PLeaf (at_element d (fst kq)))) p)).
Proof.
  intros (Hwf & Hlt & r & Hr & Hg & Hu) Hk Ep Hok Hn.
  assert (Hne : point_parts d p <> []).
  { intros E. apply map_eq_nil in E. subst p. destruct d; simpl in Ep; inversion Ep; subst; destruct Hok as [_ Hs]; cbn in Hs; lra. }
  destruct (replace_op g u d nx (point_parts d p) Hwf Hlt Hk Hn) as (ns & es & E & H1 & H2 & H3 & H4).
  destruct (rp_unfolds g u d nx (point_parts d p) ns es Hwf Hlt Hk Hn Hne H1 H2 H3 H4 same_meaning same_leaf (same_here d p Ep Hok) same_sum same_prod r t Hu)
    as (t' & U & S).
  assert (Hin : In r (node_ids g)) by now apply root_spec in Hr.
  assert (Hux : (u < nx)%nat) by (apply Hn; eapply node_kind_ids; eauto).
  exists (replaced g u nx ns es), t'. split; [|split; [|split; [|split; [|split]]]].
  - unfold as_deterministic_sum. rewrite Hk, Ep. fold (point_parts d p).
    destruct (fold_left (add_part nx) (point_parts d p) (add_node g nx USum, empty_store, Datatypes.S nx)) as [[g1 s1] n1]. now rewrite E.
  - split; [eapply rp_wf; eauto|]. split; [eapply rp_terminal; eauto|]. exists (moved u nx r).
    split; [eapply rp_root; eauto|]. split; [eapply rp_graded; eauto|exact U].
  - exact S.
  - rewrite (rp_ids g u nx _ ns es H1). intros [[_ H]|H]; [tauto|lia].
  - intros Hru. assert (r = u) as -> by congruence. rewrite (rp_root g u u d nx (point_parts d p) ns es) by auto. unfold moved. now rewrite Nat.eqb_refl.
  - replace (map (fun kq : Z * R => (nlog (Fin (snd kq)), PLeaf (at_element d (fst kq)))) p)
      with (map (fun pd : num * dist => (fst pd, PLeaf (snd pd))) (point_parts d p)).
    + eapply rp_unfolds_sum; eauto.
    + unfold point_parts. now rewrite map_map.
Qed.

Lemma answers_det g e p q : answers g e p -> answers g e q -> p = q.
Proof. intros H1 H2. destruct (H1 empty_store) as (s1 & E1), (H2 empty_store) as (s2 & E2). congruence. Qed.

(** A discrete leaf anywhere in a layered circuit, its probabilities any dictionary of non-negative numbers with sum one:
    the leaf is replaced by the new sum unit; every likelihood and the probability of every event are as before; the
    children of the sum unit are the point masses of the entries, weighted by their probabilities, and no two of them have
    positive likelihood at the same point. *)
Theorem C36_deterministic_sum g t u d p nx : layered_circuit g t -> smooth dist_vars t -> all_leaves dist_ok t -> all_sums (Forall lw_ok) t ->
  node_kind g u = Some (ULeaf d) -> d = DSym (dvar d) p \/ d = DInt (dvar d) p -> dist_ok d -> (forall x, In x (node_ids g) -> (x < nx)%nat) ->
  exists g', as_deterministic_sum g u nx = Some (g', nx) /\ ~ In u (node_ids g') /\
    (forall x L, likelihood_at g x L <-> likelihood_at g' x L) /\
    (forall e q, event_ok t e -> (answers g e q <-> answers g' e q)) /\
    exists ts, unfolds g' nx (PSum ts) /\ exclusive (PSum ts) /\
      Forall2 (fun kq wt => wexp (fst wt) = snd kq /\ exists d', snd wt = PLeaf d' /\ (d' = DSym (dvar d) [(fst kq, 1)] \/ d' = DInt (dvar d) [(fst kq, 1)])) p ts.
Proof.
  intros Hl Hs Hok Hw Hk Hd Hdo Hn. assert (Ep : probabilities d = Some p) by (destruct Hd as [-> | ->]; reflexivity).
  destruct (replaced_circuit g t u d p nx Hl Hk Ep Hdo Hn) as (g' & t' & E & Hl' & (S1 & S2 & S3 & S4 & S5 & S6) & Hu & _ & U).
  exists g'. split; [exact E|]. split; [exact Hu|]. split; [|split].
  - intros x L. split; intros H.
    + rewrite (likelihood_at_det g t x L Hl Hs H), <- S1. apply likelihood_at_lik; auto.
    + rewrite (likelihood_at_det g' t' x L Hl' (S4 Hs) H), S1. apply likelihood_at_lik; auto.
  - intros e q He. destruct (S2 e He) as [He' Eq].
    assert (A := answers_semR g t e Hl Hw Hok He). assert (A' := answers_semR g' t' e Hl' (S6 Hw) (S5 Hok) He'). rewrite Eq in A'. split; intros H.
    + now rewrite (answers_det _ _ _ _ H A).
    + now rewrite (answers_det _ _ _ _ H A').
  - assert (Hp : dict_ok p) by (destruct Hd as [Hd|Hd]; rewrite Hd in Hdo; apply Hdo).
    eexists. split; [exact U|]. split.
    + cbn [exclusive]. split; [|apply fold_and_Forall, Forall_forall; intros wt Hin; apply in_map_iff in Hin; destruct Hin as (kq & <- & _); exact I].
      intros i j a b x Hij Ha Hb [Pa Pb]. rewrite nth_error_map in Ha, Hb.
      destruct (nth_error p i) as [[ki qi]|] eqn:Ei; [|discriminate]. destruct (nth_error p j) as [[kj qj]|] eqn:Ej; [|discriminate].
      simpl in Ha, Hb. inversion Ha; subst a. inversion Hb; subst b. cbn [snd fst lik semN] in Pa, Pb. unfold lik in Pa, Pb. cbn [semN] in Pa, Pb.
      assert (G : forall k, positive (nexp (ll1 (at_element d k) (x (dvar (at_element d k))))) -> x (dvar d) = IZR k).
      { intros k Hpos. assert (F : nexp (ll1 (at_element d k) (x (dvar (at_element d k)))) = nexp (ll1 (DSym 0%nat [(k, 1)]) (x (dvar d))))
          by (destruct Hd as [-> | ->]; reflexivity). rewrite F, disc_ll in Hpos.
        - cbn in Hpos. destruct (Reqb_spec (x (dvar d)) (IZR k)); auto. unfold ind in Hpos. lra.
        - split; repeat constructor; simpl; auto; lra. }
      apply G in Pa, Pb. assert (ki = kj) as -> by (apply eq_IZR; congruence).
      destruct Hp as [Hnd _]. apply Hij. apply (NoDup_nth_error (keys p)).
      * exact Hnd.
      * apply nth_error_Some. unfold keys. rewrite nth_error_map, Ei. discriminate.
      * unfold keys. now rewrite !nth_error_map, Ei, Ej.
    + destruct Hp as [_ Hv]. clear -Hv Hd. unfold vals in Hv.
      assert (Hkind : forall k, at_element d k = DSym (dvar d) [(k, 1)] \/ at_element d k = DInt (dvar d) [(k, 1)]).
      { intros k. destruct Hd as [-> | ->]; simpl; auto. }
      clear Hd. induction p as [|[k q] p IH]; simpl in *; constructor.
      * cbn [fst snd]. inversion Hv; subst. split; [now apply wexp_nlog|]. eexists. split; [reflexivity|]. apply Hkind.
      * apply IH. now inversion Hv.
Qed.
Print Assumptions C36_deterministic_sum.

(** ** from_mixture *)

(** [d'] is what the mixture is: same likelihood at every point, same probability of every event over its variable. *)
Definition recovers (g : graph dist) (t : pc dist) (v : nat) (d' : dist) : Prop :=
  (forall x, likelihood_at g x (nexp (ll1 d' (x v)))) /\
  (forall e, event_ok t e -> exists q, prob1 d' (e v) = Some (Fin q) /\ answers g e q).

(** The claim: for every mixture (sum units over leaves) of discrete distributions of one kind over one variable. *)
Definition C36_full : Prop := forall b v g t ste st, layered_circuit g t -> mixture (leaf_over b v) t -> all_leaves dist_ok t ->
  all_sums (Forall lw_ok) t -> exists d', from_mixture b g ste st = Some d' /\ recovers g t v d'.

Lemma over_ll b v p x : dict_ok p -> nexp (ll1 (discrete_over b v p) x) = Fin (Rsum (map (fun kq => ind (Reqb x (IZR (fst kq))) * snd kq) p)).
Proof. intros Hp. transitivity (nexp (ll1 (DSym v p) x)); [unfold discrete_over; now destruct b|now apply disc_ll]. Qed.

(** True when no key of an integer distribution is changed by Python's hash, that is, for symbolic variables, and for
    integers of absolute value below 2^61-1 other than -1 ([pyhash_small] below).  Missing: the other keys, see [C36_refuted]. *)
Theorem C36_from_mixture_partial b v g t ste st : layered_circuit g t -> mixture (leaf_over b v) t -> all_leaves dist_ok t ->
  all_sums (Forall lw_ok) t -> (b = true -> all_leaves (fun d => forall k, In k (keys (dprobs d)) -> pyhash k = k) t) ->
  exists p', from_mixture b g ste st = Some (discrete_over b v p') /\ recovers g t v (discrete_over b v p') /\
    (normalised t -> dist_ok (discrete_over b v p')).
Proof.
  intros Hl Hm Hok Hw Hh. destruct (from_mixture_spec b v g t ste st Hl Hm Hok Hw Hh) as (p' & E & N & Hd). exists p'. split; [exact E|].
  assert (Hboth := all_leaves_and _ _ _ (mixture_leaves _ _ Hm) Hok).
  assert (Hp' : dict_ok p').
  { apply vals_dget; auto. intros k. rewrite Hd. apply mixture_nonneg.
    assert (M2 : mixture (fun d => leaf_over b v d /\ dist_ok d) t).
    { clear -Hm Hok. induction t as [d|l IH|l IH] using pc_ind'; cbn [mixture all_leaves] in *; [auto| |tauto]. rewrite fold_and_Forall, Forall_forall in *. auto. }
    eapply mixture_impl; [|exact M2]. intros d [[p ->] H]. assert (Hp : dict_ok p) by (unfold discrete_over in H; destruct b; apply H).
    replace (dprobs (discrete_over b v p)) with p by (unfold discrete_over; now destruct b). now apply dget_nonneg. }
  assert (Hs : smooth dist_vars t).
  { destruct Hl as (_ & _ & r & _ & _ & Hu). eapply over_smooth; eauto. eapply unfolds_sums_nonempty; eauto. }
  split; [split|].
  - intros x. rewrite over_ll by auto. rewrite <- (read_sum b v t p' (fun k => ind (Reqb (x v) (IZR k))) Hm Hok N Hd).
    rewrite <- semN_semR by auto.
    replace (semN _ t) with (lik t x); [now apply likelihood_at_lik|]. unfold lik. apply semN_ext. eapply all_leaves_impl; [|exact Hboth].
    simpl. intros d [[p ->] H]. assert (Hp : dict_ok p) by (unfold discrete_over in H; destruct b; apply H).
    replace (dvar (discrete_over b v p)) with v by (unfold discrete_over; now destruct b). rewrite over_ll by auto.
    unfold discrete_over; now destruct b.
  - intros e He. assert (A := answers_semR g t e Hl Hw Hok He). eexists. split; [|exact A].
    assert (Hex : exists d0, leaf_over b v d0 /\ evset_ok d0 (e v)).
    { clear -Hm He Hl. destruct Hl as (_ & _ & r & _ & _ & Hu). assert (Hs := unfolds_sums_nonempty _ _ _ Hu). clear Hu r g. unfold event_ok in He.
      induction t as [d|l IH|l IH] using pc_ind'; cbn [mixture all_leaves sums_nonempty] in *; [| |tauto].
      - exists d. split; auto. now rewrite (over_dvar b v d Hm) in He.
      - destruct Hs as [Hne Hs]. rewrite Forall_map_id in Hs. rewrite fold_and_Forall in Hm, He. destruct l as [|wt l]; [tauto|].
        inversion IH; inversion Hs; inversion Hm; inversion He; subst. auto. }
    assert (Hev : evset_ok (discrete_over b v p') (e v)).
    { destruct Hex as (d0 & [p0 ->] & H0). unfold discrete_over in *. destruct b; exact H0. }
    assert (Hpr : forall p, dict_ok p -> evset_ok (discrete_over b v p) (e v) -> prob1 (discrete_over b v p) (e v) = Some (Fin (probR (discrete_over b v p) (e v)))).
    { intros p Hp He'. unfold discrete_over in *. destruct b; cbn [evset_ok] in He'; destruct (e v) as [A'|l]; try tauto; cbn [prob1 probR]; do 2 f_equal.
      - rewrite int_prob_fold. cbn [in_evset]. ring.
      - rewrite Rsum_dget by (auto; apply Hp). apply Rsum_ext. intros kv _. now rewrite in_esym. }
    rewrite Hpr by auto. do 2 f_equal. symmetry.
    transitivity (semR (fun d => Rsum (map (fun kv => ind (in_evset (e v) (IZR (fst kv))) * snd kv) (dprobs d))) t).
    + apply semR_ext. eapply all_leaves_impl; [|exact Hboth]. simpl. intros d [[p ->] H].
      replace (dvar (discrete_over b v p)) with v by (unfold discrete_over; now destruct b). unfold discrete_over; now destruct b.
    + rewrite (read_sum b v t p' (fun k => ind (in_evset (e v) (IZR k))) Hm Hok N Hd). unfold discrete_over; now destruct b.
  - intros Hn. assert (Hsum : Rsum (vals p') = 1).
    { transitivity (Rsum (map (fun kv => 1 * snd kv) p')).
      - unfold vals. apply Rsum_ext. intros; ring.
      - rewrite <- (read_sum b v t p' (fun _ => 1) Hm Hok N Hd). transitivity (semR (fun _ => 1) t).
        + apply semR_ext. eapply all_leaves_impl; [|exact Hboth]. simpl. intros d [[p ->] H].
          replace (dprobs (discrete_over b v p)) with p by (unfold discrete_over; now destruct b).
          transitivity (Rsum (vals p)); [unfold vals; apply Rsum_ext; intros; ring|]. unfold discrete_over in H. destruct b; apply H.
        + apply semR_one; auto. eapply all_leaves_impl; [|exact Hok]. reflexivity. }
    unfold discrete_over. destruct b; split; auto.
Qed.
Print Assumptions C36_from_mixture_partial.

(** Which integers Python's hash leaves alone. *)
Lemma pyhash_small k : (- (2^61 - 1) < k < 2^61 - 1)%Z -> k <> (-1)%Z -> pyhash k = k.
Proof.
  intros H Hk. unfold pyhash. assert (E : Z.rem k (2^61 - 1) = k).
  { destruct (Z.le_gt_cases 0 k) as [H0|H0]; [apply Z.rem_small; lia|].
    rewrite <- (Z.opp_involutive k) at 1. rewrite Z.rem_opp_l by lia. rewrite Z.rem_small by lia. lia. }
  cbv zeta. rewrite E. destruct (Z.eqb_spec k (-1)); tauto.
Qed.

(** Converting a leaf to a sum unit and reading the distribution off again gives every element its old probability. *)
Corollary C36_round_trip_partial b v p ste st : dist_ok (discrete_over b v p) -> (b = true -> forall k, In k (keys p) -> pyhash k = k) ->
  exists g' p', as_deterministic_sum (leaf_graph (discrete_over b v p)) 0%nat 1%nat = Some (g', 1%nat) /\
    from_mixture b g' ste st = Some (discrete_over b v p') /\ forall k, dget p' k = dget p k.
Proof.
  intros Hok Hh. set (d := discrete_over b v p). assert (V := leaf_valid d Hok).
  assert (Hl : layered_circuit (leaf_graph d) (PLeaf d)) by (destruct V; eapply tree_layered; constructor; eauto).
  assert (Ep : probabilities d = Some p) by (unfold d, discrete_over; now destruct b).
  destruct (replaced_circuit (leaf_graph d) (PLeaf d) 0%nat d p 1%nat Hl eq_refl Ep Hok) as (g' & t' & E & Hl' & S & _ & Hr & U).
  { intros x [<-|[]]. simpl. lia. }
  assert (Hp : dict_ok p) by (unfold d, discrete_over in Hok; destruct b; apply Hok).
  assert (Hel : forall k, at_element d k = discrete_over b v [(k, 1)]) by (intros k; unfold d, discrete_over; now destruct b).
  assert (Hpr : forall k, dprobs (at_element d k) = [(k, 1)]) by (intros k; rewrite Hel; unfold discrete_over; now destruct b).
  assert (t' = PSum (map (fun kq => (nlog (Fin (snd kq)), PLeaf (at_element d (fst kq)))) p)) as ->.
  { destruct Hl' as (W & _ & r & Hr' & _ & Hu). assert (r = 1%nat) as -> by (rewrite Hr in Hr' by reflexivity; congruence).
    now apply (unfolds_det g' 1%nat). }
  destruct S as (_ & _ & _ & _ & S5 & S6).
  destruct (from_mixture_spec b v g' _ ste st Hl') as (p' & F & _ & G).
  - cbn [mixture]. rewrite map_map. cbn [snd mixture]. apply fold_and_Forall, Forall_forall. intros kq _. eexists. apply Hel.
  - apply S5. exact Hok.
  - apply S6. exact I.
  - intros Hb. cbn [all_leaves]. rewrite map_map. cbn [snd all_leaves]. apply fold_and_Forall, Forall_forall. intros kq Hin k Hk.
    rewrite Hpr in Hk. destruct Hk as [<-|[]]. apply Hh; [exact Hb|]. exact (in_map fst _ _ Hin).
  - exists g', p'. split; [exact E|]. split; [exact F|]. intros k. rewrite G. unfold mass. cbn [semR]. rewrite map_map. cbn [fst snd semR].
    transitivity (Rsum (map (dget p) [k])); [|cbn; ring]. rewrite Rsum_dget; [|apply Hp|repeat constructor; simpl; tauto].
    apply Rsum_ext. intros [k' q] Hin. cbn [fst snd]. rewrite Hpr, dget_cons. cbn [existsb]. rewrite orb_false_r.
    destruct Hp as [_ Hv]. rewrite Forall_forall in Hv. assert (Hq : 0 <= q) by (apply Hv; apply (in_map snd _ _ Hin)).
    rewrite (proj2 (wexp_nlog q Hq)). destruct (Z.eqb k' k); unfold ind, dget; simpl; ring.
Qed.
Print Assumptions C36_round_trip_partial.

(** ** An integer distribution on -1 comes back as one on -2 *)
Definition minus_one : dist := DInt 0 [((-1)%Z, 1)].

Lemma minus_one_ok : dist_ok minus_one.
Proof. repeat split; repeat constructor; simpl; auto; lra. Qed.

Lemma minus_one_layered : layered_circuit (leaf_graph minus_one) (PLeaf minus_one).
Proof. destruct (leaf_valid minus_one minus_one_ok). eapply tree_layered. constructor; eauto. Qed.

Theorem C36_refuted : ~ C36_full.
Proof.
  intros H. set (g := leaf_graph minus_one). set (t := PLeaf minus_one).
  assert (Hm : mixture (leaf_over true 0) t) by (exists [((-1)%Z, 1)]; reflexivity).
  destruct (H true 0%nat g t empty_store empty_store minus_one_layered Hm minus_one_ok I) as (d' & E & HR & _).
  assert (D : d' = DInt 0 [((-2)%Z, 1)]).
  { unfold from_mixture in E. change (circuit_variables dist_vars g) with (Some [0%nat]) in E. cbv iota in E.
    assert (Es : exists s, circuit_support g empty_store = Some (leaf_event 0%nat (support1 minus_one), s)) by (eexists; reflexivity).
    destruct Es as [s Es]. rewrite Es in E. unfold leaf_event in E.
    assert (EK : support_elements [[(0%nat, support1 minus_one)]] = [(elem true (-1), Some (-2)%Z)]).
    { unfold support_elements. transitivity (map (fun k => (elem true k, Some (key_of true k))) (map fst (filter (fun kv => Rltb 0 (snd kv)) [((-1)%Z, 1)]))).
      - exact (leaf_elements true 0%nat minus_one _ eq_refl).
      - cbn [filter snd]. destruct (Rltb_spec 0 1); [reflexivity|lra]. }
    setoid_rewrite EK in E. cbn [foldM] in E. unfold mixture_entry in E. cbn [fst snd] in E.
    assert (Hp := elem_prob true 0%nat minus_one (-1)%Z (ex_intro _ _ eq_refl) minus_one_ok). destruct Hp as [P1 P2].
    destruct (answers_semR g t (fun _ => elem true (-1)) minus_one_layered I minus_one_ok P1 empty_store) as (s' & Ea).
    rewrite Ea in E. unfold t in E. cbn [semR] in E. rewrite P2 in E. unfold dget in E. cbn in E. congruence. }
  subst d'. specialize (HR (fun _ => IZR (-1))).
  assert (R' := likelihood_at_det g t (fun _ => IZR (-1)) _ minus_one_layered I HR).
  assert (A : nexp (ll1 (DInt 0 [((-2)%Z, 1)]) (IZR (-1))) = Fin (Rsum (map (fun kq : Z * R => ind (Reqb (IZR (-1)) (IZR (fst kq))) * snd kq) [((-2)%Z, 1)]))).
  { apply (over_ll true 0%nat). repeat split; repeat constructor; simpl; auto; lra. }
  assert (B : nexp (ll1 minus_one (IZR (-1))) = Fin (Rsum (map (fun kq : Z * R => ind (Reqb (IZR (-1)) (IZR (fst kq))) * snd kq) [((-1)%Z, 1)]))).
  { apply (over_ll true 0%nat). repeat split; repeat constructor; simpl; auto; lra. }
  unfold lik, t in R'. cbn [semN] in R'. rewrite A, B in R'. cbn [map fst snd] in R'.
  destruct (Reqb_spec (IZR (-1)) (IZR (-2))) as [E'|_]; [apply eq_IZR in E'; discriminate|].
  destruct (Reqb_spec (IZR (-1)) (IZR (-1))) as [_|E']; [|tauto]. cbn in R'. injection R'. lra.
Qed.
Print Assumptions C36_refuted.

(** ** Cases *)

(** A mixture of two symbolic leaves with overlapping supports: the first leaf is replaced; and the mixture is read off. *)
Definition loaded : dist := DSym 0 [(0%Z, 1/4); (1%Z, 3/4)].
Definition fair : dist := DSym 0 [(1%Z, 1/2); (2%Z, 1/2)].
Definition two_coins : graph dist := mkGraph [(0, USum); (1, ULeaf loaded); (2, ULeaf fair)]%nat
  [mkEdge 0 1 (Some (nlog (Fin (1/2)))); mkEdge 0 2 (Some (nlog (Fin (1/2))))]%nat.
Definition two_coins_tree : pc dist := PSum [(nlog (Fin (1/2)), PLeaf loaded); (nlog (Fin (1/2)), PLeaf fair)].

Lemma two_coins_layered : layered_circuit two_coins two_coins_tree.
Proof.
  split; [|split].
  - constructor; cbn.
    + repeat constructor; cbn; intuition lia.
    + repeat constructor; cbn; intuition congruence.
    + intros e H. repeat destruct H as [<-|H]; cbn; tauto.
    + intros e H. repeat destruct H as [<-|H]; cbn; tauto.
  - intros e d H. repeat destruct H as [<-|H]; cbn; try discriminate. destruct H.
  - exists 0%nat. split; [reflexivity|]. split.
    + exists (fun u => if u =? 0 then 0 else 1)%nat. split; [reflexivity|].
      intros e H _. repeat destruct H as [<-|H]; cbn; try reflexivity. destruct H.
    + unfold two_coins_tree. unf.
Qed.

Lemma loaded_ok : dist_ok loaded.
Proof. split; [split|]; [|repeat constructor; simpl; lra|simpl; lra]. repeat constructor; simpl; intuition discriminate. Qed.
Lemma fair_ok : dist_ok fair.
Proof. split; [split|]; [|repeat constructor; simpl; lra|simpl; lra]. repeat constructor; simpl; intuition discriminate. Qed.
Lemma two_coins_ok : all_leaves dist_ok two_coins_tree /\ all_sums (Forall lw_ok) two_coins_tree /\ smooth dist_vars two_coins_tree.
Proof.
  split; [|split].
  - split; [exact loaded_ok|]. split; [exact fair_ok|exact I].
  - split; [|repeat split]. repeat constructor; apply wexp_nlog; lra.
  - split; [|repeat split]. intros v [H|[H|[]]]; repeat split; exact H.
Qed.

Example C36_deterministic_sum_case : exists g', as_deterministic_sum two_coins 1%nat 3%nat = Some (g', 3%nat) /\
  likelihood_at g' (fun _ => 1) (lik two_coins_tree (fun _ => 1)) /\ answers g' (fun _ => ESym [0%Z; 2%Z]) (3/8).
Proof.
  destruct two_coins_ok as (H1 & H2 & H3).
  destruct (C36_deterministic_sum two_coins two_coins_tree 1%nat loaded [(0%Z, 1/4); (1%Z, 3/4)] 3%nat two_coins_layered H3 H1 H2) as (g' & E & _ & L & A & _).
  - reflexivity.
  - left. reflexivity.
  - exact loaded_ok.
  - intros x [<-|[<-|[<-|[]]]]; cbn; lia.
  - exists g'. split; [exact E|]. split; [apply L, likelihood_at_lik; auto using two_coins_layered|]. 
    assert (He : event_ok two_coins_tree (fun _ => ESym [0%Z; 2%Z])) by (repeat split; repeat constructor; simpl; intuition discriminate).
    apply (A _ _ He). assert (S := answers_semR two_coins two_coins_tree _ two_coins_layered H2 H1 He).
    match type of S with answers _ _ ?r => replace (3/8) with r; [exact S|] end.
    cbn [semR two_coins_tree map fst snd]. unfold two_coins_tree. cbn [semR map fst snd]. rewrite (proj2 (wexp_nlog (1/2) ltac:(lra))).
    assert (F1 : probR loaded (ESym [0%Z; 2%Z]) = Rsum (map (dget [(0%Z, 1/4); (1%Z, 3/4)]) [0%Z; 2%Z])).
    { rewrite Rsum_dget; [|apply loaded_ok|repeat constructor; simpl; intuition discriminate]. apply Rsum_ext. intros kv _. now rewrite in_esym. }
    assert (F2 : probR fair (ESym [0%Z; 2%Z]) = Rsum (map (dget [(1%Z, 1/2); (2%Z, 1/2)]) [0%Z; 2%Z])).
    { rewrite Rsum_dget; [|apply fair_ok|repeat constructor; simpl; intuition discriminate]. apply Rsum_ext. intros kv _. now rewrite in_esym. }
    rewrite F1, F2. cbn. lra.
Qed.

Example C36_from_mixture_case : exists p', from_mixture false two_coins empty_store empty_store = Some (DSym 0 p') /\ recovers two_coins two_coins_tree 0 (DSym 0 p') /\
  dget p' 1%Z = 5/8.
Proof.
  destruct two_coins_ok as (H1 & H2 & H3).
  assert (Hm : mixture (leaf_over false 0) two_coins_tree) by (repeat split; eexists; reflexivity).
  destruct (C36_from_mixture_partial false 0%nat two_coins two_coins_tree empty_store empty_store two_coins_layered Hm H1 H2) as (p' & E & R & _); [discriminate|].
  exists p'. split; [exact E|]. split; [exact R|].
  destruct (from_mixture_spec false 0%nat two_coins two_coins_tree empty_store empty_store two_coins_layered Hm H1 H2) as (p2 & E2 & _ & G); [discriminate|].
  rewrite E in E2. inversion E2; subst p2. rewrite G. unfold mass, two_coins_tree. cbn [semR map fst snd]. rewrite (proj2 (wexp_nlog (1/2) ltac:(lra))).
  unfold dget. cbn. lra.
Qed.

Example C36_round_trip_case : exists g' p', as_deterministic_sum (leaf_graph (DInt 0 [(3%Z, 1/4); (5%Z, 3/4)])) 0%nat 1%nat = Some (g', 1%nat) /\
  from_mixture true g' empty_store empty_store = Some (DInt 0 p') /\ dget p' 5%Z = 3/4.
Proof.
  destruct (C36_round_trip_partial true 0%nat [(3%Z, 1/4); (5%Z, 3/4)] empty_store empty_store) as (g' & p' & E & F & G).
  - split; [split|]; [|repeat constructor; simpl; lra|simpl; lra]. repeat constructor; simpl; intuition discriminate.
  - intros _ k [<-|[<-|[]]]; reflexivity.
  - exists g', p'. split; [exact E|]. split; [exact F|]. rewrite G. reflexivity.
Qed.
