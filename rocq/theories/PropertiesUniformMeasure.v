(** * Property C58: uniform measures are uniform *)
From Coq Require Import List Arith Bool Lia Reals Lra ZArith Permutation.
From Verif Require Import Num Graph GraphFacts Spec SpecFacts Circuit EvalFacts VarFacts PropertiesQuery Interval GaussInt Dist DistFacts CondFacts
  TreeProb PropertiesProb PropertiesDist Simplify SimplifyFacts TreeLocal NormalizeFacts PropertiesSimplify Restrict MarginalFacts PropertiesMarginal
  Conditional ConditionalFacts CondPass CondMain LeafCond CondBayes PropertiesConditional Heap Interaction MountTree BayesNet Support SupportFacts ConditionalEvent ConditionalEventFacts
  PropertiesConditionalEvent Layout LayoutFacts Star UniformStar PropertiesJptModel UniformMeasure UniformMeasureFacts.
Import ListNotations.
Local Set Bullet Behavior "Strict Subproofs".
Local Open Scope R_scope.

(** ** Specification *)

(** The size of an assignment: total length of intervals, number of values. *)
Definition size (k : vkind) (A : evset) : R :=
  match k, A with
  | VContinuous, EInt A => Rsum (map len A)
  | VSymbolic, ESym l => INR (length l)
  | VInteger, EInt A => INR (length A)
  | _, _ => 0
  end.
Definition volume (vars : list (nat * vkind)) (e : sevent) : R := Rprod (map (fun vk => size (snd vk) (e (fst vk))) vars).

Definition integers (A : interval) : Prop := forall i, In i A -> exists k, i = isingleton (IZR k).

(** A bounded, non-empty assignment without isolated points. *)
Definition fits (k : vkind) (A : evset) : Prop :=
  match k, A with
  | VContinuous, EInt A => A <> [] /\ interval_ok A /\ Forall bounded A
  | VSymbolic, ESym l => l <> [] /\ NoDup l
  | VInteger, EInt A => A <> [] /\ interval_ok A /\ integers A
  | _, _ => False
  end.

(** An assignment that may be asked for. *)
Definition asks (k : vkind) (A : evset) : Prop :=
  match k, A with
  | VContinuous, EInt A | VInteger, EInt A => interval_ok A /\ A <> []
  | VSymbolic, ESym l => NoDup l
  | _, _ => False
  end.

(** [C] has the points of [E] and [A], and is given by parts of the intervals of [E], by values and by integers respectively. *)
Definition cut (k : vkind) (E A C : evset) : Prop :=
  (forall x, in_evset C x = in_evset E x && in_evset A x) /\
  match k, E, C with
  | VContinuous, EInt E, EInt C => interval_ok C /\ forall c, In c C -> exists i, In i E /\ forall x, in_sint c x = true -> in_sint i x = true
  | VSymbolic, _, ESym l => NoDup l
  | VInteger, _, EInt C => interval_ok C /\ integers C
  | _, _, _ => False
  end.

(** Two simple sets without common point. *)
Definition parted_on (vars : list (nat * vkind)) (e e' : sevent) : Prop := exists vk, In vk vars /\ forall x, in_evset (e (fst vk)) x && in_evset (e' (fst vk)) x = false.

(** The circuit gives every simple set [a] the volume of its intersection with the event, relative to the volume of the event. *)
Definition uniform_on (vars : list (nat * vkind)) (es : list sevent) (q : graph dist) : Prop :=
  forall a cs, (forall vk, In vk vars -> asks (snd vk) (a (fst vk))) ->
    Forall2 (fun e c => forall vk, In vk vars -> cut (snd vk) (e (fst vk)) (a (fst vk)) (c (fst vk))) es cs ->
    answers q a (Rsum (map (volume vars) cs) / Rsum (map (volume vars) es)).

(** What random_events guarantees about the bounding box. *)
Definition box_good (union : evset -> evset -> evset) (vars : list (nat * vkind)) (es : list sevent) : Prop :=
  match es with
  | [] => True
  | e :: es' => forall vk, In vk vars -> fits (snd vk) (bounding_box union e es' (fst vk)) /\
      forall x, in_evset (bounding_box union e es' (fst vk)) x = existsb (fun e' => in_evset (e' (fst vk)) x) es
  end.

Record bounded_event (union : evset -> evset -> evset) (vars : list (nat * vkind)) (es : list sevent) : Prop := {
  be_names : NoDup (map fst vars);
  be_some : es <> [];
  be_fits : forall e vk, In e es -> In vk vars -> fits (snd vk) (e (fst vk));
  be_apart : ForallOrdPairs (parted_on vars) es;
  be_box : box_good union vars es
}.

Definition C58_full : Prop := forall union vars es, bounded_event union vars es ->
  exists q, uniform_measure_of_event union vars es = Some (Some q) /\ uniform_on vars es q.

(** ** One variable *)
Lemma in_singletons C x : in_interval (map (fun k => isingleton (IZR k)) C) x = existsb (fun k => Reqb (IZR k) x) C.
Proof.
  induction C as [|k C IH]; [reflexivity|]. cbn [map in_interval existsb]. unfold in_interval in *. rewrite IH. f_equal. unfold in_sint, above, below, isingleton. cbn.
  rb; cbn; auto; lra.
Qed.

Lemma integers_keys A : interval_ok A -> integers A -> exists ks, A = map (fun k => isingleton (IZR k)) ks /\ NoDup ks /\ mapM integer_key A = Some ks.
Proof.
  intros [_ HD] HI. induction A as [|i A IH]; [exists []; repeat split; constructor|]. destruct HD as [D1 D2].
  destruct IH as (ks & -> & N & E); [auto|intros j Hj; apply HI; now right|]. destruct (HI i (or_introl eq_refl)) as (k & ->). exists (k :: ks). split; [reflexivity|]. split.
  - constructor; auto. intros Hk. apply (D1 (isingleton (IZR k))) with (x := IZR k); [apply in_map_iff; eauto|]. unfold in_sint, above, below, isingleton. cbn. rb; cbn; auto; lra.
  - cbn [mapM]. assert (Ek : integer_key (isingleton (IZR k)) = Some k).
    { unfold integer_key, isingleton. cbn [lo]. assert (Int_part (IZR k) = k) as ->; [|destruct (Reqb_spec (IZR k) (IZR k)); congruence].
      unfold Int_part. assert (up (IZR k) = (k + 1)%Z) as ->; [|lia]. symmetry. apply tech_up; rewrite plus_IZR; lra. }
    rewrite Ek, E. reflexivity.
Qed.

Lemma count_keys p c l : 0 <= c -> NoDup l -> NoDup p -> incl l p ->
  Rsum (map (fun kv => ind (existsb (Z.eqb (fst kv)) l) * snd kv) (map (fun k => (k, c)) p)) = INR (length l) * c.
Proof.
  intros Hc Hl Hp H. rewrite <- Rsum_dget; auto.
  - rewrite <- (Rsum_const c l). apply Rsum_ext. intros k Hk. apply H in Hk. apply dget_In; [unfold keys; rewrite map_map; cbn; now rewrite map_id|]. apply in_map_iff. eauto.
  - unfold keys. rewrite map_map. cbn. now rewrite map_id.
Qed.

Lemma one_contains v A c L : Forall bounded A -> disjointed A -> Forall (fun i => len i = L) A -> sint_ok c -> (exists i, In i A /\ forall x, in_sint c x = true -> in_sint i x = true) ->
  Rsum (map (fun i => delta (cdfR (DUnif v i)) c) A) = len c / L.
Proof.
  intros HB HD HL Hc (i & Hi & Hx).
  assert (Hf : exists l h, lo c = Fin l /\ hi c = Fin h).
  { rewrite Forall_forall in HB. destruct (HB i Hi) as (a & b & E1 & E2 & _). destruct (inside_ends c a b Hc) as (l & h & F1 & F2 & _); eauto. intros x Y. eapply in_bounds; eauto. }
  induction A as [|j A IH]; [contradiction|]. inversion HB as [|? ? B1 B2]; subst. destruct HD as [D1 D2]. inversion HL as [|? ? L1 L2]; subst. cbn [map Rsum fold_right]. change (fold_right Rplus 0 ?l) with (Rsum l).
  destruct Hi as [->|Hi].
  - rewrite uniform_inside by auto. rewrite Rsum_zero; [lra|]. intros k Hk. rewrite Forall_forall in B2. apply uniform_outside; auto.
    intros x [X1 X2]. apply (D1 k Hk x). auto.
  - rewrite IH by auto. rewrite uniform_outside; auto; [lra|]. intros x [X1 X2]. apply (D1 i Hi x). auto.
Qed.

(** Intervals of equal length: then the wrong weights do not matter. *)
Definition level (k : vkind) (A : evset) : Prop :=
  match k, A with VContinuous, EInt A => exists L, Forall (fun i => len i = L) A | _, _ => True end.

Lemma len_pos i : bounded i -> 0 < len i.
Proof. intros (a & b & E1 & E2 & H). unfold len. rewrite E1, E2. lra. Qed.


(** The assignment is the whole bounding box, or one interval of a bounding box that is one interval. *)
Definition plain (k : vkind) (B E : evset) : Prop :=
  match k with VContinuous => E = B \/ exists b i, B = EInt [b] /\ E = EInt [i] | _ => True end.

Lemma sub_inter b i : bounded b -> bounded i -> (forall x, in_sint i x = true -> in_sint b x = true) -> sint_inter b i = i.
Proof.
  intros (a1 & b1 & E1 & E2 & H1) (a2 & b2 & E3 & E4 & H2) Hx.
  assert (Hs : sint_ok i) by (unfold sint_ok; rewrite E3, E4; repeat split; try discriminate; left; exact H2).
  destruct (inside_ends i a1 b1 Hs) as (l & h & F1 & F2 & G1 & G2 & G3); [intros x Y; eapply in_bounds; eauto|]. rewrite E3 in F1. rewrite E4 in F2. injection F1 as <-. injection F2 as <-.
  unfold sint_inter, nmax_lo, nmin_hi. rewrite E1, E2, E3, E4. destruct i as [li ui lci rci]. cbn [lo hi lc rc] in *. subst li ui.
  assert (X1 : a1 = a2 -> lci = true -> lc b = true).
  { intros -> ->. specialize (Hx a2). unfold in_sint, above, below in Hx. cbn [lo hi lc rc] in Hx. rewrite E1, E2 in Hx. destruct (lc b); auto.
    assert (Y : Rltb a2 a2 && (if rc b then Rleb a2 b1 else Rltb a2 b1) = true) by (apply Hx; destruct rci; rb; auto; lra). revert Y. rb; cbn; auto; lra. }
  assert (X2 : b1 = b2 -> rci = true -> rc b = true).
  { intros -> ->. specialize (Hx b2). unfold in_sint, above, below in Hx. cbn [lo hi lc rc] in Hx. rewrite E1, E2 in Hx. destruct (rc b); auto.
    assert (Y : (if lc b then Rleb a1 b2 else Rltb a1 b2) && Rltb b2 b2 = true) by (apply Hx; destruct lci; rb; auto; lra). revert Y. destruct (lc b); rb; cbn; auto; try discriminate; lra. }
  assert (M1 : (if Rltb a1 a2 then (Fin a2, lci) else if Rltb a2 a1 then (Fin a1, lc b) else (Fin a1, lc b && lci)) = (Fin a2, lci)).
  { destruct (Rltb_spec a1 a2); [reflexivity|]. destruct (Rltb_spec a2 a1); [lra|]. assert (E : a1 = a2) by lra. rewrite E. f_equal. destruct lci; [now rewrite X1|apply andb_false_r]. }
  assert (M2 : (if Rltb b1 b2 then (Fin b1, rc b) else if Rltb b2 b1 then (Fin b2, rci) else (Fin b1, rc b && rci)) = (Fin b2, rci)).
  { destruct (Rltb_spec b1 b2); [lra|]. destruct (Rltb_spec b2 b1); [reflexivity|]. assert (E : b1 = b2) by lra. rewrite E. f_equal. destruct rci; [now rewrite X2|apply andb_false_r]. }
  rewrite M1, M2. reflexivity.
Qed.

Lemma not_empty i : bounded i -> sint_empty i = false.
Proof. intros (a & b & E1 & E2 & H). unfold sint_empty. rewrite E1, E2. rb; cbn; auto; lra. Qed.

Lemma own_inter A i : Forall bounded A -> disjointed A -> In i A -> interval_inter [i] A = [i].
Proof.
  intros HB HD Hi. rewrite inter_single.
  assert (Hs : sint_inter i i = i) by (rewrite Forall_forall in HB; apply sub_inter; auto).
  induction A as [|j A IH]; [contradiction|]. inversion HB as [|? ? B1 B2]; subst. destruct HD as [D1 D2]. cbn [map filter]. destruct Hi as [->|Hi].
  - rewrite Hs, not_empty by auto. cbn [negb]. f_equal. assert (G : forall k, In k A -> sint_empty (sint_inter i k) = true).
    { intros k Hk. rewrite Forall_forall in B2. apply disjoint_empty; auto. }
    clear - G. induction A as [|k A IH]; [reflexivity|]. cbn [map filter]. rewrite G by now left. apply IH. intros. apply G. now right.
  - rewrite Forall_forall in B2. rewrite disjoint_empty; auto; [cbn [negb]; apply IH; auto; now apply Forall_forall|]. intros x [X1 X2]. apply (D1 i Hi x). auto.
Qed.

(** ** The unit of one variable *)
Record unit_facts (v : nat) (k : vkind) (B : evset) (t : pc dist) : Prop := {
  uf_valid : valid_over [v] t /\ sums_nonempty t;
  uf_fin : fin_sums t;
  uf_dvar : all_leaves (fun d => dvar d = v) t;
  uf_event : forall A, asks k A -> all_leaves (fun d => evset_ok d A) t;
  uf_wf : forall E A C, cut k E A C -> all_leaves (fun d => evset_wf d C) t;
  uf_prob : level k B -> forall E A C, cut k E A C -> (forall x, in_evset E x = true -> in_evset B x = true) ->
    (k = VContinuous -> forall c i, E = EInt i -> In c i -> exists j l, B = EInt l /\ In j l /\ forall x, in_sint c x = true -> in_sint j x = true) ->
    semR (fun d => probR d C) t = size k C / size k B;
  uf_regular : forall E, fits k E -> plain k B E -> (forall x, in_evset E x = true -> in_evset B x = true) ->
    all_leaves (fun d => no_points d E) t /\ all_leaves (fun d => one_piece d E) t /\ even (fun d => probR d E) t
}.

Lemma continuous_unit v A : fits VContinuous (EInt A) -> exists t, uniform_unit (v, VContinuous) (EInt A) = Some t /\ unit_facts v VContinuous (EInt A) t.
Proof.
  intros (Hne & [Hok HD] & HB). cbn [uniform_unit]. destruct (parts_weights v A Hne HB) as (z & Ez & E). rewrite E. eexists. split; [reflexivity|].
  set (t := star (map (fun i => (Fin (len i - z), DUnif v i)) A)).
  assert (Hl : forall P : dist -> Prop, (forall i, In i A -> P (DUnif v i)) -> all_leaves P t).
  { intros P HP. apply star_leaves. apply Forall_map, Forall_forall. intros i Hi. cbn. auto. }
  constructor.
  - apply star_valid; [destruct A; [congruence|discriminate]| | |].
    + rewrite !Forall_map. apply Forall_forall. intros. exact I.
    + rewrite !map_map. cbn [fst wexp]. rewrite (Rsum_ext _ (fun i => exp (len i) / exp z)), Rsum_div, <- Ez; [field; pose proof (exp_pos z); lra|].
      intros i _. unfold Rminus. rewrite exp_plus, exp_Ropp. reflexivity.
    + apply Forall_map, Forall_forall. intros i Hi. cbn. split; [reflexivity|]. rewrite Forall_forall in HB. exact (HB i Hi).
  - unfold fin_sums. apply star_sums. rewrite !Forall_map. apply Forall_forall. intros. exact I.
  - apply Hl. reflexivity.
  - intros [B|l] HQ; [|contradiction]. apply Hl. intros i _. exact HQ.
  - intros E0 A0 [C|l] [_ HC]; [|destruct E0; contradiction]. apply Hl. intros i _. destruct E0; [|contradiction]. apply HC.
  - intros (L & HL) E0 A0 [C|l] [Hx HC] Hsub Hin; [|destruct E0; contradiction]. destruct E0 as [E0|]; [|contradiction]. destruct HC as [[HC1 HC2] HC3].
    unfold t. rewrite star_semR, map_map. cbn [fst snd wexp size].
    assert (HLpos : 0 < L). { destruct A as [|i A']; [congruence|]. inversion HL; subst. inversion HB; subst. now apply len_pos. }
    assert (Hn : 0 < INR (length A)) by (apply lt_0_INR; destruct A; [congruence|cbn; lia]).
    assert (HLn : Rsum (map len A) = INR (length A) * L). { rewrite <- Rsum_const. apply Rsum_ext. intros i Hi. rewrite Forall_forall in HL. now apply HL. }
    assert (Ew : forall i, In i A -> exp (len i - z) = / INR (length A)).
    { intros i Hi. assert (Hz : exp z = INR (length A) * exp L). { rewrite Ez, <- Rsum_const. apply Rsum_ext. intros j Hj. rewrite Forall_forall in HL. now rewrite HL. }
      rewrite Forall_forall in HL. rewrite HL by auto. unfold Rminus. rewrite exp_plus, exp_Ropp, Hz. pose proof (exp_pos L). field. lra. }
    rewrite (Rsum_ext _ (fun i => / INR (length A) * Rsum (map (fun c => delta (cdfR (DUnif v i)) c) C))) by (intros i Hi; rewrite Ew; auto).
    rewrite Rsum_scal, Rsum_swap. rewrite (Rsum_ext _ (fun c => len c / L)).
    + rewrite Rsum_div, HLn. field. lra.
    + intros c Hc. apply one_contains; auto; [rewrite Forall_forall in HC1; auto|]. destruct (HC3 c Hc) as (i & Hi & Hci). destruct (Hin eq_refl i E0 eq_refl Hi) as (j & l & El & Hj & Hij). injection El as <-. eauto.
  - intros E0 HF HP Hsub. destruct E0 as [E0|]; [|contradiction]. destruct HF as (Fne & Fok & FB).
    assert (Hi1 : forall i, In i A -> exists j, bounded j /\ support_inter (DUnif v i) E0 = [j]).
    { intros i Hi. rewrite Forall_forall in HB. cbn [support_inter]. destruct HP as [HP|(b & i' & HP1 & HP2)].
      - injection HP as ->. exists i. split; [auto|]. apply own_inter; auto.
      - injection HP1 as ->. injection HP2 as ->. destruct Hi as [<-|[]]. inversion FB as [|? ? FB1 _]; subst. exists i'. split; [auto|].
        unfold support_inter. cbn [support1]. rewrite inter_single. cbn [map filter]. rewrite sub_inter; auto; [now rewrite not_empty|apply HB; now left|]. intros x Hxx. specialize (Hsub x). cbn in Hsub. rewrite !orb_false_r in Hsub. auto. }
    split; [|split].
    + apply Hl. intros i Hi. destruct (Hi1 i Hi) as (j & Bj & Ej). unfold no_points. rewrite Ej. intros j' [<-|[]]. destruct Bj as (a & b & E1 & E2 & H). unfold is_singleton. rewrite E1, E2. rb; auto; lra.
    + apply Hl. intros i Hi. destruct (Hi1 i Hi) as (j & Bj & Ej). unfold one_piece. rewrite Ej. cbn. lia.
    + unfold even, t, star. cbn [all_sub]. rewrite map_map. split.
      * destruct HP as [HP|(b & i' & HP1 & HP2)].
        -- injection HP as ->. exists 1. rewrite !Forall_map. apply Forall_forall. intros i Hi. cbn [snd semR].
           assert (O : dist_ok (DUnif v i)) by (rewrite Forall_forall in HB; exact (HB i Hi)).
           pose proof (support_inter_prob (DUnif v i) A I O (conj Hok HD)) as (_ & HS & _). rewrite <- HS. unfold support_inter. cbn [support1]. rewrite own_inter by auto. cbn [probR]. unfold measure. cbn [map Rsum fold_right].
           rewrite Forall_forall in HB, Hok. rewrite uniform_inside; auto. pose proof (len_pos i (HB i Hi)). field. lra.
        -- injection HP1 as ->. cbn [map]. eexists. repeat constructor.
      * apply fold_and_Forall. apply Forall_map, Forall_forall. intros i _. cbn. tauto.
Qed.

Lemma uniform_dict (l : list Z) : l <> [] -> NoDup l -> let p := map (fun k => (k, 1 / INR (length l))) l in dict_ok p /\ Rsum (vals p) = 1.
Proof.
  intros Hne Hn p. assert (Hp : 0 < INR (length l)) by (apply lt_0_INR; destruct l; [congruence|cbn; lia]). unfold p. split; [split|].
  - unfold keys. rewrite map_map. cbn. now rewrite map_id.
  - unfold vals. rewrite map_map. apply Forall_map, Forall_forall. intros k _. cbn. apply Rlt_le, Rdiv_lt_0_compat; lra.
  - unfold vals. rewrite map_map. cbn [snd]. rewrite Rsum_const. field. lra.
Qed.

Lemma symbolic_unit v l : fits VSymbolic (ESym l) -> exists t, uniform_unit (v, VSymbolic) (ESym l) = Some t /\ unit_facts v VSymbolic (ESym l) t.
Proof.
  intros (Hne & Hn). cbn [uniform_unit]. eexists. split; [reflexivity|]. assert (Hp : 0 < INR (length l)) by (apply lt_0_INR; destruct l; [congruence|cbn; lia]). constructor.
  - apply PropertiesJptModel.leaf_valid; [reflexivity|]. exact (uniform_dict l Hne Hn).
  - exact I.
  - reflexivity.
  - intros [B|m] HQ; [contradiction|]. exact HQ.
  - intros E A [C|m] [_ HC]; [contradiction|]. exact HC.
  - intros _ E A [C|m] [Hx HC] Hsub _; [contradiction|]. cbn [semR probR size].
    rewrite (Rsum_ext _ (fun kv => ind (existsb (Z.eqb (fst kv)) m) * snd kv)) by (intros kv _; now rewrite in_esym). rewrite count_keys; auto.
    + field. lra.
    + apply Rlt_le, Rdiv_lt_0_compat; lra.
    + intros k Hk. assert (Y : in_evset (ESym l) (IZR k) = true).
      { apply Hsub. assert (Z : in_evset (ESym m) (IZR k) = true) by (rewrite in_esym; now apply existsb_Zeqb). rewrite Hx in Z. apply andb_true_iff in Z. tauto. }
      rewrite in_esym in Y. now apply existsb_Zeqb.
  - intros E _ _ _. cbn. tauto.
Qed.

Lemma integer_unit v A : fits VInteger (EInt A) -> exists t, uniform_unit (v, VInteger) (EInt A) = Some t /\ unit_facts v VInteger (EInt A) t.
Proof.
  intros (Hne & Hok & HI). cbn [uniform_unit]. destruct (integers_keys A Hok HI) as (ks & EA & Hn & E). rewrite E. eexists. split; [reflexivity|].
  assert (El : length A = length ks) by (rewrite EA; apply map_length). rewrite El.
  assert (Hks : ks <> []) by (intros ->; apply Hne; now rewrite EA).
  assert (Hp : 0 < INR (length ks)) by (apply lt_0_INR; destruct ks; [congruence|cbn; lia]).
  assert (Hin : forall l k, in_interval (map (fun k => isingleton (IZR k)) l) (IZR k) = existsb (Z.eqb k) l) by (intros l k; rewrite in_singletons; exact (in_esym l k)).
  constructor.
  - apply PropertiesJptModel.leaf_valid; [reflexivity|]. exact (uniform_dict ks Hks Hn).
  - exact I.
  - reflexivity.
  - intros [B|m] HQ; [|contradiction]. exact HQ.
  - intros E0 A0 [C|m] [_ HC]; [|contradiction]. apply HC.
  - intros _ E0 A0 [C|m] [Hx HC] Hsub _; [|contradiction]. destruct HC as [HC HCI]. cbn [semR probR size in_evset]. destruct (integers_keys C HC HCI) as (kc & EC & Hc & _). subst C. rewrite map_length, El.
    rewrite (Rsum_ext _ (fun kv => ind (existsb (Z.eqb (fst kv)) kc) * snd kv)) by (intros kv _; now rewrite Hin). rewrite count_keys; auto.
    + field. lra.
    + apply Rlt_le, Rdiv_lt_0_compat; lra.
    + intros k Hk. assert (Y : in_evset (EInt A) (IZR k) = true).
      { apply Hsub. assert (Z : in_evset (EInt (map (fun k => isingleton (IZR k)) kc)) (IZR k) = true) by (cbn [in_evset]; rewrite Hin; now apply existsb_Zeqb). rewrite Hx in Z. apply andb_true_iff in Z. tauto. }
      rewrite EA in Y. cbn [in_evset] in Y. rewrite Hin in Y. now apply existsb_Zeqb.
  - intros E0 _ _ _. cbn. destruct E0; tauto.
Qed.

Lemma unit_exists v k B : fits k B -> exists t, uniform_unit (v, k) B = Some t /\ unit_facts v k B t.
Proof.
  intros H. destruct k, B as [B|l]; try contradiction; [now apply continuous_unit|now apply symbolic_unit|now apply integer_unit].
Qed.

(** ** The circuit *)
Lemma size_pos k A : fits k A -> 0 < size k A.
Proof.
  destruct k, A as [A|l]; cbn [fits size]; try contradiction.
  - intros (Hne & _ & HB). destruct A as [|i A]; [congruence|]. inversion HB as [|? ? B1 B2]; subst. cbn [map Rsum fold_right]. apply Rplus_lt_le_0_compat; [now apply len_pos|].
    apply Rsum_nonneg, Forall_map, Forall_forall. intros j Hj. rewrite Forall_forall in B2. left. now apply len_pos, B2.
  - intros (Hne & _). apply lt_0_INR. destruct l; [congruence|cbn; lia].
  - intros (Hne & _). apply lt_0_INR. destruct A; [congruence|cbn; lia].
Qed.

Lemma Rprod_pos l : Forall (fun x => 0 < x) l -> 0 < Rprod l.
Proof. induction 1 as [|x l Hx _ IH]; cbn; [lra|]. now apply Rmult_lt_0_compat. Qed.

Lemma Rprod_div {A} (f h : A -> R) l : (forall a, In a l -> h a <> 0) -> Rprod (map (fun a => f a / h a) l) = Rprod (map f l) / Rprod (map h l).
Proof.
  intros H. induction l as [|a l IH]; cbn; [field|]. unfold Rprod in IH. rewrite IH by (intros; apply H; now right).
  assert (Hn : fold_right Rmult 1 (map h l) <> 0).
  { clear IH. induction l as [|b l IHl]; cbn; [lra|]. apply Rmult_integral_contrapositive_currified; [apply H; right; now left|]. apply IHl. intros x Hx. apply H. destruct Hx; [now left|right; now right]. }
  field. split; [exact Hn|]. apply H. now left.
Qed.

Section Circuit.
Variables (vars : list (nat * vkind)) (box : sevent) (ts : list (pc dist)).
Hypothesis Hfit : forall vk, In vk vars -> fits (snd vk) (box (fst vk)).
Hypothesis Hts : Forall2 (fun vk t => unit_facts (fst vk) (snd vk) (box (fst vk)) t) vars ts.
Hypothesis Hnames : NoDup (map fst vars).

Lemma units_leaves (P : dist -> Prop) : (forall vk t, In vk vars -> unit_facts (fst vk) (snd vk) (box (fst vk)) t -> all_leaves P t) -> all_leaves P (PProd ts).
Proof.
  intros H. cbn [all_leaves]. apply fold_and_Forall. apply Forall_forall. intros t Ht. destruct (Forall2_in_r _ _ _ _ Hts Ht) as (vk & Hvk & HU). eapply H; eauto.
Qed.

Lemma units_valid : valid_tree (layout (PProd ts)) 0%nat (PProd ts) /\ fin_sums (PProd ts).
Proof.
  assert (HV : valid_over (map fst vars) (PProd ts) /\ sums_nonempty (PProd ts)).
  { apply prod_valid; auto. pose proof Hts as X. clear - X. induction X as [|vk t vs ts' HU _ IH]; cbn [map]; [apply Forall2_nil|apply Forall2_cons; [apply HU|exact IH]]. }
  destruct HV as [V N]. split.
  - constructor; try apply V; [apply layout_tree|apply layout_leaves_terminal|now apply layout_unfolds].
  - unfold fin_sums. cbn [all_sums]. apply fold_and_Forall. apply Forall_forall. intros t Ht. destruct (Forall2_in_r _ _ _ _ Hts Ht) as (vk & Hvk & HU). apply HU.
Qed.

(** Inside a unit only its own variable matters. *)
Lemma own_leaves (e : sevent) (P : dist -> evset -> Prop) v t : all_leaves (fun d => dvar d = v) t -> all_leaves (fun d => P d (e v)) t -> all_leaves (fun d => P d (e (dvar d))) t.
Proof. intros A B. eapply all_leaves_impl; [|exact (all_leaves_and _ _ _ A B)]. simpl. intros d [-> H]. exact H. Qed.

Lemma own_semR (e : sevent) v t : all_leaves (fun d => dvar d = v) t -> semR (fun d => probR d (e (dvar d))) t = semR (fun d => probR d (e v)) t.
Proof. intros A. apply semR_ext. eapply all_leaves_impl; [|exact A]. simpl. intros d ->. reflexivity. Qed.

Lemma own_even (e : sevent) v t : all_leaves (fun d => dvar d = v) t -> even (fun d => probR d (e v)) t -> even (fun d => probR d (e (dvar d))) t.
Proof.
  intros A. unfold even. induction t as [d|l IH|l IH] using pc_ind'; cbn [all_sub all_leaves] in *; auto.
  - intros [(c & Hc) H2]. apply fold_and_Forall in A, H2. rewrite Forall_forall in *. split.
    + exists c. apply Forall_forall. intros wt Hw. rewrite (own_semR e v) by auto. auto.
    + apply fold_and_Forall, Forall_forall. intros wt Hw. auto.
  - intros [_ H2]. apply fold_and_Forall in A, H2. rewrite Forall_forall in *. split; [exact I|]. apply fold_and_Forall, Forall_forall. auto.
Qed.

Lemma units_prob (c : sevent) : (forall vk t, In vk vars -> unit_facts (fst vk) (snd vk) (box (fst vk)) t -> semR (fun d => probR d (c (fst vk))) t = size (snd vk) (c (fst vk)) / size (snd vk) (box (fst vk))) ->
  prob_of c (PProd ts) = volume vars c / volume vars box.
Proof.
  intros H. unfold prob_of, volume. cbn [semR]. rewrite <- Rprod_div by (intros vk Hvk; pose proof (size_pos _ _ (Hfit vk Hvk)); lra). f_equal.
  pose proof Hts as X. clear - X H. induction X as [|vk t vs ts' HU _ IH]; [reflexivity|]. cbn [map]. f_equal.
  - rewrite (own_semR c (fst vk)) by apply HU. apply H; [now left|exact HU].
  - apply IH. intros vk' t' Hvk'. apply H. now right.
Qed.

Lemma units_regular (e : sevent) : (forall vk, In vk vars -> fits (snd vk) (e (fst vk)) /\ plain (snd vk) (box (fst vk)) (e (fst vk)) /\ forall x, in_evset (e (fst vk)) x = true -> in_evset (box (fst vk)) x = true) ->
  regular (PProd ts) e.
Proof.
  intros H. constructor.
  - apply units_leaves. intros vk t Hvk HU. destruct (H vk Hvk) as (F & _). apply (own_leaves e evset_ok (fst vk)); [apply HU|]. apply (uf_event _ _ _ _ HU). destruct (snd vk), (e (fst vk)); cbn in F |- *; tauto.
  - apply units_leaves. intros vk t Hvk HU. destruct (H vk Hvk) as (F & P & X). apply (own_leaves e no_points (fst vk)); [apply HU|]. now apply (uf_regular _ _ _ _ HU).
  - apply units_leaves. intros vk t Hvk HU. destruct (H vk Hvk) as (F & P & X). apply (own_leaves e one_piece (fst vk)); [apply HU|]. now apply (uf_regular _ _ _ _ HU).
  - unfold even. cbn [all_sub]. split; [exact I|]. apply fold_and_Forall, Forall_forall. intros t Ht. destruct (Forall2_in_r _ _ _ _ Hts Ht) as (vk & Hvk & HU).
    destruct (H vk Hvk) as (F & P & X). apply (own_even e (fst vk)); [apply HU|]. now apply (uf_regular _ _ _ _ HU).
Qed.
End Circuit.

(** ** C58 *)
Lemma F2_impl {A B} (P Q : A -> B -> Prop) l l' : (forall a b, P a b -> Q a b) -> Forall2 P l l' -> Forall2 Q l l'.
Proof. intros H. induction 1; constructor; auto. Qed.

Lemma units_exist vars box : (forall vk, In vk vars -> fits (snd vk) (box (fst vk))) -> exists ts, mapM (fun vk => uniform_unit vk (box (fst vk))) vars = Some ts /\
  Forall2 (fun vk t => unit_facts (fst vk) (snd vk) (box (fst vk)) t) vars ts.
Proof.
  induction vars as [|[v k] vars IH]; intros H; [exists []; split; constructor|]. destruct IH as (ts & E & F); [intros vk Hvk; apply H; now right|].
  destruct (unit_exists v k (box v) (H (v, k) (or_introl eq_refl))) as (t & Et & Ft). exists (t :: ts). split; [|constructor; auto]. cbn [mapM fst]. now rewrite Et, E.
Qed.

Lemma fits_cut k A : fits k A -> cut k A A A.
Proof.
  intros H. split; [intros x; now rewrite andb_diag|]. destruct k, A as [A|l]; cbn in *; try tauto. split; [tauto|]. intros c Hc. exists c. auto.
Qed.

Lemma plain_inside k B E : fits k E -> plain k B E -> (forall x, in_evset E x = true -> in_evset B x = true) ->
  k = VContinuous -> forall c i, E = EInt i -> In c i -> exists j l, B = EInt l /\ In j l /\ forall x, in_sint c x = true -> in_sint j x = true.
Proof.
  intros HF HP Hx -> c i -> Hc. destruct HP as [<-|(b & i' & -> & E)]; [exists c, i; auto|]. injection E as ->. destruct Hc as [<-|[]].
  exists b, [b]. split; [reflexivity|]. split; [now left|]. intros x X. specialize (Hx x). cbn in Hx. rewrite !orb_false_r in Hx. auto.
Qed.

(** Proved part: every continuous variable has intervals of equal length in the bounding box, and every simple set either takes the
    whole of it or one interval of a bounding box of one interval.  Discrete variables are arbitrary.  Missing: intervals of
    different lengths, for which the claim is false, and simple sets that cut a bounding box of several intervals. *)
Theorem C58_uniform_partial union vars e0 es : bounded_event union vars (e0 :: es) ->
  (forall vk, In vk vars -> level (snd vk) (bounding_box union e0 es (fst vk)) /\ forall e, In e (e0 :: es) -> plain (snd vk) (bounding_box union e0 es (fst vk)) (e (fst vk))) ->
  exists q, uniform_measure_of_event union vars (e0 :: es) = Some (Some q) /\ uniform_on vars (e0 :: es) q.
Proof.
  intros [Hnames _ Hfits _ Hbox] HG. cbn [box_good] in Hbox. set (box := bounding_box union e0 es) in *. set (l := e0 :: es) in *.
  assert (Hb : forall vk, In vk vars -> fits (snd vk) (box (fst vk))) by (intros; now apply Hbox).
  assert (Hsub : forall e vk x, In e l -> In vk vars -> in_evset (e (fst vk)) x = true -> in_evset (box (fst vk)) x = true).
  { intros e vk x He Hvk X. destruct (Hbox vk Hvk) as [_ ->]. apply existsb_exists. eauto. }
  destruct (units_exist vars box Hb) as (ts & Em & Fu). destruct (units_valid vars box ts Fu Hnames) as [V F].
  assert (HR : Forall (regular (PProd ts)) l).
  { apply Forall_forall. intros e He. apply (units_regular vars box ts Fu). intros vk Hvk. split; [now apply Hfits|]. split; [now apply HG|]. intros x. now apply Hsub. }
  assert (Hprob : forall e a c, In e l -> (forall vk, In vk vars -> cut (snd vk) (e (fst vk)) (a (fst vk)) (c (fst vk))) -> prob_of c (PProd ts) = volume vars c / volume vars box).
  { intros e a c He Hc. apply (units_prob vars box ts Hb Fu). intros vk t Hvk HU. destruct (HG vk Hvk) as [HL HP]. apply (uf_prob _ _ _ _ HU HL (e (fst vk)) (a (fst vk))); [auto|intros x; now apply Hsub|].
    apply plain_inside; [now apply Hfits|now apply HP|intros x; now apply Hsub]. }
  assert (Hp1 : forall e, In e l -> prob_of e (PProd ts) = volume vars e / volume vars box).
  { intros e He. apply (Hprob e e e He). intros vk Hvk. now apply fits_cut, Hfits. }
  assert (Hvb : 0 < volume vars box). { apply Rprod_pos, Forall_map, Forall_forall. intros vk Hvk. now apply size_pos, Hb. }
  assert (Hve : forall e, In e l -> 0 < volume vars e). { intros e He. apply Rprod_pos, Forall_map, Forall_forall. intros vk Hvk. now apply size_pos, Hfits. }
  assert (Es : Rsum (map (fun e => prob_of e (PProd ts)) l) = Rsum (map (volume vars) l) / volume vars box).
  { rewrite <- Rsum_div. apply Rsum_ext. auto. }
  assert (Hvs : 0 < Rsum (map (volume vars) l)).
  { unfold l. cbn [map Rsum fold_right]. apply Rplus_lt_le_0_compat; [apply Hve; now left|]. apply Rsum_nonneg, Forall_map, Forall_forall. intros e He. left. apply Hve. now right. }
  destruct (event_bayes l _ _ _ V F HR ltac:(rewrite Es; now apply Rdiv_lt_0_compat) empty_store) as (q & rq & tq & lp & E & _ & A).
  exists q. split.
  - unfold uniform_measure_of_event, l in *. unfold uniform_measure_of_simple_event. fold box. rewrite Em, E. reflexivity.
  - intros a cs Ha Hcs.
    assert (Hea : event_ok (PProd ts) a).
    { apply (units_leaves vars box ts Fu). intros vk t Hvk HU. apply (own_leaves a evset_ok (fst vk)); [apply HU|]. apply (uf_event _ _ _ _ HU). auto. }
    assert (Hm : Forall2 (fun e c => meet (PProd ts) c e a) l cs).
    { eapply F2_impl; [|exact Hcs]. intros e c Hc. apply (units_leaves vars box ts Fu). intros vk t Hvk HU.
      eapply all_leaves_impl; [|exact (all_leaves_and _ _ _ (uf_dvar _ _ _ _ HU) (uf_wf _ _ _ _ HU _ _ _ (Hc vk Hvk)))]. simpl. intros d [-> W]. split; [exact W|]. apply (Hc vk Hvk). }
    specialize (A a cs Hea Hm). rewrite Es in A.
    assert (Ec : Rsum (map (fun c => prob_of c (PProd ts)) cs) = Rsum (map (volume vars) cs) / volume vars box).
    { rewrite <- Rsum_div. apply Rsum_ext. intros c Hc. destruct (Forall2_in_r _ _ _ _ Hcs Hc) as (e & He & HC). now apply (Hprob e a c). }
    rewrite Ec in A. replace (Rsum (map (volume vars) cs) / Rsum (map (volume vars) l)) with (Rsum (map (volume vars) cs) / volume vars box / (Rsum (map (volume vars) l) / volume vars box)); [exact A|]. field. lra.
Qed.

(** The intervals [0, 1] and [2, 4]: the weights are e : e², not 1 : 2. *)
Definition two_gaps : sevent := fun _ => EInt [iclosed 0 1; iclosed 2 4].
Definition keep_first (A B : evset) : evset := A.

Lemma two_gaps_ok : interval_ok [iclosed 0 1; iclosed 2 4].
Proof.
  split; [apply Forall_cons; [|apply Forall_cons; [|apply Forall_nil]]; bounds|]. cbn. split; [|split; [intros j []|exact I]].
  intros j [<-|[]] x. unfold in_sint, above, below. cbn. rb; cbn; intros [? ?]; try discriminate; lra.
Qed.

Lemma two_gaps_event : bounded_event keep_first [(0%nat, VContinuous)] [two_gaps].
Proof.
  assert (HF : fits VContinuous (EInt [iclosed 0 1; iclosed 2 4])).
  { split; [discriminate|]. split; [apply two_gaps_ok|]. apply Forall_cons; [exists 0, 1; cbn; repeat split; lra|]. apply Forall_cons; [exists 2, 4; cbn; repeat split; lra|apply Forall_nil]. }
  constructor.
  - repeat constructor; cbn; tauto.
  - discriminate.
  - intros e vk [<-|[]] [<-|[]]. exact HF.
  - repeat constructor.
  - intros vk [<-|[]]. cbn [fst snd]. split; [exact HF|]. intros x. cbn [existsb]. now rewrite orb_false_r.
Qed.

Theorem C58_uniform_refuted : ~ C58_full.
Proof.
  intros H. destruct (H _ _ _ two_gaps_event) as (q & E & HU).
  set (first := (fun _ => EInt [iclosed 0 1]) : sevent).
  assert (I1 : interval_ok [iclosed 0 1]) by (apply interval_one; bounds).
  assert (Hx : forall x, in_evset (first 0%nat) x = in_evset (two_gaps 0%nat) x && in_evset (first 0%nat) x).
  { intros x. cbn. unfold in_sint, above, below. cbn. rb; cbn; auto; lra. }
  assert (A1 : answers q first (1 / 3)).
  { replace (1 / 3) with (Rsum (map (volume [(0%nat, VContinuous)]) [first]) / Rsum (map (volume [(0%nat, VContinuous)]) [two_gaps])).
    - apply HU; [intros vk [<-|[]]; split; [exact I1|discriminate]|]. constructor; [|constructor]. intros vk [<-|[]]. cbn [fst snd]. split; [exact Hx|]. split; [exact I1|].
      intros c [<-|[]]. exists (iclosed 0 1). split; [now left|auto].
    - cbn. unfold len. cbn. lra. }
  destruct (be_box _ _ _ two_gaps_event (0%nat, VContinuous) (or_introl eq_refl)) as [HF _]. cbn [fst snd bounding_box fold_left] in HF.
  destruct (units_exist [(0%nat, VContinuous)] two_gaps) as (ts & Em & Fu); [intros vk [<-|[]]; exact HF|].
  destruct (units_valid _ _ _ Fu) as [V F]; [repeat constructor; cbn; tauto|].
  assert (HR : Forall (regular (PProd ts)) [two_gaps]).
  { apply Forall_cons; [|apply Forall_nil]. apply (units_regular _ _ _ Fu). intros vk [<-|[]]. split; [exact HF|]. split; [now left|auto]. }
  destruct HF as (Hne & Hok & HB). destruct (parts_weights 0%nat [iclosed 0 1; iclosed 2 4] Hne HB) as (z & Ez & Ep).
  cbn [mapM uniform_unit two_gaps fst] in Em. rewrite Ep in Em. injection Em as <-.
  set (t := PProd [star (map (fun i => (Fin (len i - z), DUnif 0 i)) [iclosed 0 1; iclosed 2 4])]) in *.
  assert (L1 : len (iclosed 0 1) = 1) by (unfold len; cbn; lra). assert (L2 : len (iclosed 2 4) = 2) by (unfold len; cbn; lra).
  assert (Hz : 0 < exp z) by apply exp_pos. cbn [map Rsum fold_right] in Ez. rewrite L1, L2 in Ez.
  assert (B1 : bounded (iclosed 0 1)) by (exists 0, 1; cbn; repeat split; lra). assert (B2 : bounded (iclosed 2 4)) by (exists 2, 4; cbn; repeat split; lra).
  assert (O1 : sint_ok (iclosed 0 1)) by bounds. assert (O2 : sint_ok (iclosed 2 4)) by bounds.
  assert (D : forall x, ~ (in_sint (iclosed 0 1) x = true /\ in_sint (iclosed 2 4) x = true)).
  { intros x. unfold in_sint, above, below. cbn. rb; cbn; intros [? ?]; try discriminate; lra. }
  assert (U11 : delta (cdfR (DUnif 0 (iclosed 0 1))) (iclosed 0 1) = 1) by (rewrite uniform_inside by auto; rewrite L1; field).
  assert (U22 : delta (cdfR (DUnif 0 (iclosed 2 4))) (iclosed 2 4) = 1) by (rewrite uniform_inside by auto; rewrite L2; field).
  assert (U12 : delta (cdfR (DUnif 0 (iclosed 0 1))) (iclosed 2 4) = 0) by (apply uniform_outside; auto; [do 2 eexists; cbn; eauto|intros x [? ?]; apply (D x); auto]).
  assert (U21 : delta (cdfR (DUnif 0 (iclosed 2 4))) (iclosed 0 1) = 0) by (apply uniform_outside; auto; do 2 eexists; cbn; eauto).
  assert (W : forall r, exp (r - z) = exp r / exp z) by (intros r; unfold Rminus; now rewrite exp_plus, exp_Ropp).
  assert (P1 : prob_of first t = exp 1 / exp z).
  { unfold prob_of, t, star. cbn [semR map Rprod fold_right Rsum fst snd wexp dvar]. unfold first. cbn [probR]. unfold measure. cbn [map Rsum fold_right]. rewrite U11, U21, L1, L2, !W. ring. }
  assert (P2 : prob_of two_gaps t = 1).
  { unfold prob_of, t, star. cbn [semR map Rprod fold_right Rsum fst snd wexp dvar]. unfold two_gaps. cbn [probR]. unfold measure. cbn [map Rsum fold_right]. rewrite U11, U21, U12, U22, L1, L2, !W.
    replace (exp 1 / exp z * (1 + (0 + 0)) + (exp 2 / exp z * (0 + (1 + 0)) + 0)) with ((exp 1 + (exp 2 + 0)) / exp z) by (field; lra). rewrite <- Ez. field. lra. }
  assert (Hs : 0 < Rsum (map (fun e => prob_of e t) [two_gaps])) by (cbn [map Rsum fold_right]; rewrite P2; lra).
  destruct (event_bayes [two_gaps] _ _ _ V F HR Hs empty_store) as (q' & rq & tq & lp & E' & _ & A).
  assert (Eu : uniform_measure_of_simple_event [(0%nat, VContinuous)] (bounding_box keep_first two_gaps []) = Some (layout t)).
  { unfold uniform_measure_of_simple_event. cbn [bounding_box fold_left mapM uniform_unit two_gaps fst]. now rewrite Ep. }
  change (conditional_event [two_gaps] (layout t) empty_store = Some (Some q', lp)) in E'.
  unfold uniform_measure_of_event in E. rewrite Eu, E' in E. injection E as <-.
  assert (A2 : answers q' first (exp 1 / exp z)).
  { assert (A' : event_ok t first -> Forall2 (fun e c => meet t c e first) [two_gaps] [first] ->
      answers q' first (Rsum (map (fun c => prob_of c t) [first]) / Rsum (map (fun e => prob_of e t) [two_gaps]))) by exact (A first [first]).
    cbn [map Rsum fold_right] in A'. rewrite P1, P2 in A'. replace (exp 1 / exp z) with ((exp 1 / exp z + 0) / (1 + 0)) by (field; lra). apply A'.
    - apply (units_leaves _ _ _ Fu). intros vk t' [<-|[]] HU'. apply (own_leaves first evset_ok 0%nat); [apply HU'|]. apply (uf_event _ _ _ _ HU'). split; [exact I1|discriminate].
    - constructor; [|constructor]. apply (units_leaves _ _ _ Fu). intros vk t' [<-|[]] HU'. 
      assert (Q : asks VContinuous (first 0%nat)) by (split; [exact I1|discriminate]). pose proof (uf_event _ _ _ _ HU' (first 0%nat) Q) as HE. pose proof (uf_dvar _ _ _ _ HU') as HD'. clearbody first.
      eapply all_leaves_impl; [|exact (all_leaves_and _ _ _ HD' HE)]. cbn [fst]. intros d [-> Wd]. split; [now apply evset_ok_wf|exact Hx]. }
  pose proof (answers_unique _ _ _ _ A1 A2) as EA. pose proof (exp_ineq1 1 ltac:(lra)) as X.
  assert (E2 : exp 2 = exp 1 * exp 1) by (rewrite <- exp_plus; f_equal; ring). rewrite Ez, E2 in EA.
  clear - EA X. revert EA X. generalize (exp 1). intros u EA X.
  assert (Hd : u + (u * u + 0) <> 0) by (assert (0 < u * u) by (apply Rmult_lt_0_compat; lra); lra).
  apply (f_equal (fun y => y * (u + (u * u + 0)))) in EA. unfold Rdiv in EA. rewrite (Rmult_assoc u), Rinv_l in EA by exact Hd.
  assert (u * (u - 2) = 0) by lra. apply Rmult_integral in H. lra.
Qed.

(** A product of a continuous and a symbolic variable: [0, 1] × {0} and [0, 1/2] × {1}. *)
Definition wide : sevent := fun v => match v with 0%nat => EInt [iclosed 0 1] | _ => ESym [0%Z] end.
Definition narrow : sevent := fun v => match v with 0%nat => EInt [iclosed 0 (1/2)] | _ => ESym [1%Z] end.
Definition join (A B : evset) : evset := match A, B with ESym l, ESym m => ESym (l ++ m) | _, _ => A end.

Example C58_case : exists q, uniform_measure_of_event join [(0%nat, VContinuous); (1%nat, VSymbolic)] [wide; narrow] = Some (Some q) /\
  uniform_on [(0%nat, VContinuous); (1%nat, VSymbolic)] [wide; narrow] q.
Proof.
  assert (B1 : forall b, 0 < b -> fits VContinuous (EInt [iclosed 0 b])).
  { intros b Hb. split; [discriminate|]. split; [apply interval_one; bounds; left; lra|]. apply Forall_cons; [exists 0, b; cbn; repeat split; lra|apply Forall_nil]. }
  assert (B2 : forall k, fits VSymbolic (ESym [k])) by (intros k; split; [discriminate|repeat constructor; cbn; tauto]).
  apply C58_uniform_partial.
  - constructor.
    + repeat constructor; cbn; intuition lia.
    + discriminate.
    + intros e vk [<-|[<-|[]]] [<-|[<-|[]]]; cbn [fst snd wide narrow]; auto; apply B1; lra.
    + repeat constructor. exists (1%nat, VSymbolic). split; [cbn; tauto|]. intros x. cbn. rb; cbn; auto; lra.
    + intros vk [<-|[<-|[]]]; cbn [fst snd bounding_box fold_left wide narrow join app].
      * split; [apply B1; lra|]. intros x. cbn. unfold in_sint, above, below. cbn. rb; cbn; auto; lra.
      * split; [split; [discriminate|repeat constructor; cbn; intuition lia]|]. intros x. cbn. now rewrite !orb_false_r.
  - intros vk [<-|[<-|[]]]; cbn [fst snd bounding_box fold_left wide narrow join app].
    + split; [exists 1; apply Forall_cons; [unfold len; cbn; lra|apply Forall_nil]|]. intros e [<-|[<-|[]]]; [now left|right]. cbn. eauto.
    + split; [exact I|]. intros e _. exact I.
Qed.

Print Assumptions C58_uniform_partial.
Print Assumptions C58_uniform_refuted.
