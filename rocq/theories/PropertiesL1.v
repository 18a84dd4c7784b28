(** * Property C67: the L1 metric of shallow circuits *)
From Coq Require Import List Arith Bool Lia Reals Lra ZArith Sorting.Sorted.
From Verif Require Import Num Graph GraphFacts Spec SpecFacts Circuit EvalFacts VarFacts Interval GaussInt Dist DistFacts TreeProb TreeLocal LeafCond
  Support SupportFacts ModeFacts PropertiesProb PropertiesSupport PropertiesSimplify PropertiesQuery CondFacts L1 L1Events L1Sub L1Step L1Main.
Import ListNotations.
Local Set Bullet Behavior "Strict Subproofs".
Local Open Scope R_scope.

(** ** What the code is meant to compute

    A shallow circuit over the variables [vs]: one sum unit over products of uniform leaves, one leaf per variable, and
    weights that sum to one. *)
Definition shallow (vs : list nat) (g : graph dist) (cs : list comp) : Prop :=
  vs <> [] /\ NoDup vs /\ cs <> [] /\ Forall (comp_ok vs) cs /\ layered_circuit g (mixture cs) /\ Rsum (map (fun c => wexp (fst c)) cs) = 1.

Definition part_of (vs : list nat) (e : sevent) (x : nat -> R) : Prop := forall v, In v vs -> in_evset (e v) (x v) = true.

(** A finite union of disjoint boxes. *)
Definition proper (vs : list nat) (A : list sevent) : Prop :=
  Forall (fun e => forall v, In v vs -> exists B, e v = EInt B /\ interval_ok B /\ B <> []) A /\
  forall i j e f x, i <> j -> nth_error A i = Some e -> nth_error A j = Some f -> ~ (part_of vs e x /\ part_of vs f x).

(** The circuit's own answers, summed over the boxes. *)
Definition prob (g : graph dist) (A : list sevent) (p : R) : Prop := exists ps, Forall2 (answers g) A ps /\ p = Rsum ps.

(** [r] is the largest difference of the probabilities that the two circuits give to one event. *)
Definition farthest (vs : list nat) (g h : graph dist) (r : R) : Prop :=
  (exists A p q, proper vs A /\ prob g A p /\ prob h A q /\ r = p - q) /\
  forall A p q, proper vs A -> prob g A p -> prob h A q -> p - q <= r.

Definition C67_full : Prop := forall se sn vs g h cs ds, shallow vs g cs -> shallow vs h ds ->
  exists r, farthest vs g h r /\ l1 se sn g h (Fin 0) = Some (Fin (2 * r)).

(** ** Events and their probabilities *)
Lemma Rsum_cons r l : Rsum (r :: l) = r + Rsum l.
Proof. reflexivity. Qed.

Lemma part_simple vs e x : in_simple vs e x = true <-> part_of vs e x.
Proof. unfold in_simple. apply forallb_forall. Qed.

Lemma proper_real vs A : proper vs A -> Forall (real_simple vs) A.
Proof. intros [H _]. eapply Forall_impl; [|exact H]. intros e He v Hv. destruct (He v Hv) as (B & E & O & _). exists B. auto. Qed.

Lemma times_nonneg vs A x : 0 <= times vs A x.
Proof. apply Rsum_nonneg, Forall_map, Forall_forall. intros e _. apply ind_nonneg. Qed.

Lemma proper_tail vs e A : proper vs (e :: A) -> proper vs A.
Proof. intros [H1 H2]. split; [now inversion H1|]. intros i j a b x N Ha Hb. now apply (H2 (S i) (S j) a b x); [lia| |]. Qed.

Lemma proper_times vs A x : proper vs A -> times vs A x <= 1.
Proof.
  induction A as [|e A IH]; intros H; [unfold times; cbn; lra|]. change (times vs (e :: A) x) with (ind (in_simple vs e x) + times vs A x).
  destruct (in_simple vs e x) eqn:Ee; cbn [ind]; [|specialize (IH (proper_tail vs e A H)); lra].
  assert (Z : times vs A x = 0); [|lra]. unfold times. rewrite (Rsum_ext _ (fun _ => 0)); [clear; induction A; cbn [map]; [reflexivity|rewrite Rsum_cons, IHA; ring]|]. intros f Hf.
  destruct (in_simple vs f x) eqn:Ef; [|reflexivity]. exfalso. apply In_nth_error in Hf as [j Hj]. apply (proj2 H 0%nat (S j) e f x); [lia|reflexivity|exact Hj|].
  split; now apply part_simple.
Qed.

Lemma two_times vs A x : forall i j e f, i <> j -> nth_error A i = Some e -> nth_error A j = Some f -> in_simple vs e x = true -> in_simple vs f x = true -> 2 <= times vs A x.
Proof.
  induction A as [|a A IH]; intros i j e f N Hi Hj He Hf; [destruct i; discriminate|]. change (times vs (a :: A) x) with (ind (in_simple vs a x) + times vs A x).
  assert (One : forall k d, nth_error A k = Some d -> in_simple vs d x = true -> 1 <= times vs A x).
  { clear. induction A as [|b A IH]; intros k d Hk Hd; [destruct k; discriminate|]. change (times vs (b :: A) x) with (ind (in_simple vs b x) + times vs A x).
    destruct k; cbn [nth_error] in Hk; [injection Hk as ->; rewrite Hd; cbn [ind]; pose proof (times_nonneg vs A x); lra|].
    specialize (IH k d Hk Hd). pose proof (ind_nonneg (in_simple vs b x)). lra. }
  destruct i, j; cbn [nth_error] in Hi, Hj; try lia.
  - injection Hi as ->. rewrite He. cbn [ind]. specialize (One j f Hj Hf). lra.
  - injection Hj as ->. rewrite Hf. cbn [ind]. specialize (One i e Hi He). lra.
  - specialize (IH i j e f (fun E => N (f_equal S E)) Hi Hj He Hf). pose proof (ind_nonneg (in_simple vs a x)). lra.
Qed.

(** The events the code builds are proper. *)
Lemma tiles_proper vs E X : real_event vs E -> solid E -> tiles E X -> proper vs (map assign E).
Proof.
  intros HE HS HT. split.
  - apply Forall_map. apply Forall_forall. intros b Hb v Hv. unfold real_event in HE. unfold solid in HS. rewrite Forall_forall in HE, HS.
    destruct (assign_real vs b v (HE b Hb) Hv) as (A & _ & EA & OA). exists A. split; [exact EA|]. split; [exact OA|]. now apply (assign_nonempty vs b v A (HE b Hb) (HS b Hb) Hv).
  - intros i j e f x N Hi Hj [He Hf]. apply part_simple in He, Hf. pose proof (two_times vs _ x i j e f N Hi Hj He Hf) as H2.
    rewrite (times_cnt vs) in H2 by exact HE. rewrite HT in H2. destruct (X x); cbn [ind] in H2; lra.
Qed.

Lemma proper_nil vs : proper vs [].
Proof. split; [constructor|]. intros [|i] j e f x _ Hi; discriminate. Qed.

Lemma prob_mass vs g cs A p : shallow vs g cs -> proper vs A -> prob g A p <-> p = total_mass cs A.
Proof.
  intros (Nv & Nd & Nc & Hc & Lg & _) [HA _]. unfold prob, total_mass.
  assert (K : forall e, In e A -> answers g e (mass cs e)).
  { intros e He. rewrite Forall_forall in HA. specialize (HA e He). apply answers_semR; auto.
    - now apply (mixture_sums vs).
    - apply (mixture_leaves vs); auto.
    - apply (simple_ok vs); auto.
      + intros v Hv. destruct (HA v Hv) as (B & E & O & _). exists B. auto.
      + intros v Hv E. destruct (HA v Hv) as (B & E' & _ & Nb). congruence. }
  split.
  - intros (ps & Hps & ->). f_equal. clear HA. induction Hps as [|e p A ps Hp _ IH]; [reflexivity|]. cbn [map]. f_equal; [|apply IH; intros; apply K; now right].
    destruct (Hp empty_store) as [s1 H1]. destruct (K e (or_introl eq_refl) empty_store) as [s2 H2]. congruence.
  - intros ->. exists (map (mass cs) A). split; [|reflexivity]. clear HA. induction A as [|e A IH]; [constructor|]. cbn [map]. constructor; [apply K; now left|apply IH; intros; apply K; now right].
Qed.

(** Two events with the same points where the density does not vanish have the same mass. *)
Lemma same_mass vs cs E A : NoDup vs -> Forall (comp_ok vs) cs -> Forall (real_simple vs) E -> Forall (real_simple vs) A ->
  (forall x, (times vs E x - times vs A x) * height_at cs x = 0) -> total_mass cs E = total_mass cs A.
Proof.
  intros Nd Hc HE HA Hp.
  assert (Z : forall B, total_mass [] B = 0). { intros B. unfold total_mass. induction B as [|e B IH]; [reflexivity|]. cbn [map]. rewrite Rsum_cons, IH. unfold mass. cbn. ring. }
  assert (N0 : forall x, height_at [] x = 0) by reflexivity.
  apply Rle_antisym.
  - pose proof (compare_events vs cs [] A E 0 Nd Hc (Forall_nil _) HA HE) as H. rewrite !Z in H. enough (K : total_mass cs E - 0 <= total_mass cs A - 0 + 0 * Rsum (map volume cs)) by lra. apply H.
    intros x. rewrite N0. specialize (Hp x). lra.
  - pose proof (compare_events vs cs [] E A 0 Nd Hc (Forall_nil _) HE HA) as H. rewrite !Z in H. enough (K : total_mass cs A - 0 <= total_mass cs E - 0 + 0 * Rsum (map volume cs)) by lra. apply H.
    intros x. rewrite N0. specialize (Hp x). lra.
Qed.

Definition everything : sevent := fun _ => EInt [ireals].

Lemma everything_ok v : exists B, everything v = EInt B /\ interval_ok B /\ B <> [].
Proof. exists [ireals]. split; [reflexivity|]. split; [|discriminate]. split; [constructor; [|constructor]|cbn; tauto]. unfold sint_ok, ireals. cbn. repeat split; try discriminate. now left. Qed.

Lemma everything_proper vs : proper vs [everything].
Proof.
  split; [constructor; [intros v _; apply everything_ok|constructor]|]. intros i j e f x N Hi Hj. destruct i as [|[|i]], j as [|[|j]]; try lia; discriminate.
Qed.

Lemma everything_mass vs g cs : shallow vs g cs -> total_mass cs [everything] = 1.
Proof.
  intros Hs. symmetry. apply (prob_mass vs g cs [everything] 1 Hs (everything_proper vs)). exists [1]. split; [|cbn; ring]. constructor; [|constructor].
  destruct Hs as (Nv & Nd & Nc & Hc & Lg & H1).
  apply (C03_total g (mixture cs) Lg).
  - unfold normalised, mixture. cbn [all_sums]. rewrite fold_and_Forall. split.
    + rewrite map_map. cbn [fst]. split; [apply Forall_map; eapply Forall_impl; [|exact Hc]; intros c H; apply H|]. rewrite map_map. exact H1.
    + apply Forall_map. apply Forall_forall. intros c _. cbn [snd]. unfold product. cbn [all_sums]. rewrite fold_and_Forall. apply Forall_map. apply Forall_forall. intros d _. exact Logic.I.
  - apply (mixture_leaves vs); auto.
  - apply (simple_ok vs); auto.
    + intros v _. destruct (everything_ok v) as (B & E & O & _). exists B. auto.
    + intros v _ H. discriminate.
  - unfold event_full. apply (mixture_leaves vs); auto. intros d _ (v & i & ->). cbn. intros. reflexivity.
Qed.

(** The complement of an event. *)
Definition box_of (vs : list nat) (e : sevent) : box := map (fun v => (v, e v)) vs.

Lemma box_of_real vs e : NoDup vs -> real_simple vs e -> real_box vs (box_of vs e).
Proof.
  intros Nd He. unfold real_box, box_of. rewrite map_map. cbn [fst]. rewrite map_id. split; [exact Nd|]. split; [tauto|]. apply Forall_map. apply Forall_forall. intros v Hv. now apply He.
Qed.

Lemma in_box_of vs e x : in_box (box_of vs e) x = in_simple vs e x.
Proof. unfold in_box, box_of, in_simple. clear. induction vs as [|v vs IH]; [reflexivity|]. cbn [map forallb fst snd]. now rewrite IH. Qed.

Lemma complement vs A : vs <> [] -> NoDup vs -> proper vs A -> exists A', proper vs A' /\ Forall (real_simple vs) A' /\ forall x, times vs A x + times vs A' x = 1.
Proof.
  intros Nv Nd HA. pose proof (proper_real vs A HA) as RA.
  assert (RE : real_simple vs everything). { intros v _. destruct (everything_ok v) as (B & E & O & _). exists B. auto. }
  assert (R1 : real_event vs [box_of vs everything]) by (constructor; [now apply box_of_real|constructor]).
  assert (R2 : real_event vs (map (box_of vs) A)) by (apply Forall_map; eapply Forall_impl; [|exact RA]; intros e; now apply box_of_real).
  destruct (event_minus_tiles vs [box_of vs everything] (map (box_of vs) A) (in_box (box_of vs everything)) Nv R1 R2 (tiles_one _)) as [R3 T3].
  assert (S3 : solid (event_minus [box_of vs everything] (map (box_of vs) A))).
  { apply event_minus_solid. constructor; [|constructor]. unfold box_empty, box_of. destruct vs as [|v vs']; [congruence|]. cbn [map].
    apply not_true_iff_false. intros H. apply existsb_exists in H as (vA & H1 & H2). destruct H1 as [<-|H1]; [discriminate|]. apply in_map_iff in H1 as (w & <- & _). discriminate. }
  exists (map assign (event_minus [box_of vs everything] (map (box_of vs) A))). split; [now apply (tiles_proper vs _ _ R3 S3 T3)|]. split.
  - apply Forall_map. eapply Forall_impl; [|exact R3]. intros b. apply assign_simple.
  - intros x. rewrite (times_cnt vs) by exact R3. rewrite T3. rewrite in_box_of.
    assert (E1 : in_simple vs everything x = true) by (apply forallb_forall; intros v _; reflexivity). rewrite E1. cbn [andb].
    assert (E2 : in_event (map (box_of vs) A) x = true <-> 0 < times vs A x).
    { rewrite in_event_cnt. unfold cnt, times. rewrite map_map. erewrite Rsum_ext; [apply iff_refl|]. intros e _. cbn. now rewrite in_box_of. }
    assert (E3 : times vs A x = 0 \/ times vs A x = 1).
    { pose proof (proper_times vs A x HA) as H1. clear -H1. induction A as [|e A IH]; [left; reflexivity|]. change (times vs (e :: A) x) with (ind (in_simple vs e x) + times vs A x) in *.
      pose proof (times_nonneg vs A x). destruct (in_simple vs e x); cbn [ind] in *; [right; lra|]. destruct IH; [lra|left; lra|right; lra]. }
    destruct (in_event (map (box_of vs) A) x) eqn:Ex; cbn [negb ind].
    + destruct E3; [|lra]. assert (0 < times vs A x) by (now apply E2). lra.
    + destruct E3 as [E3|E3]; [lra|]. assert (true = false -> False) by discriminate. rewrite E3 in E2. destruct E2 as [_ E2]. specialize (E2 Rlt_0_1). congruence.
Qed.

Lemma times_app vs A B x : times vs (A ++ B) x = times vs A x + times vs B x.
Proof. unfold times. now rewrite map_app, Rsum_app. Qed.
Lemma total_mass_app cs A B : total_mass cs (A ++ B) = total_mass cs A + total_mass cs B.
Proof. unfold total_mass. now rewrite map_app, Rsum_app. Qed.

Lemma complement_mass vs g cs A A' : shallow vs g cs -> proper vs A -> proper vs A' -> (forall x, times vs A x + times vs A' x = 1) ->
  total_mass cs A' = 1 - total_mass cs A.
Proof.
  intros Hs HA HA' Hx. rewrite <- (everything_mass vs g cs Hs). pose proof Hs as (Nv & Nd & Nc & Hc & _).
  rewrite <- (same_mass vs cs (A ++ A') [everything] Nd Hc).
  - rewrite total_mass_app. ring.
  - apply Forall_app. split; now apply proper_real.
  - apply proper_real, everything_proper.
  - intros x. rewrite times_app, Hx. replace (times vs [everything] x) with 1; [ring|]. unfold times. cbn [map]. rewrite Rsum_cons. cbn [Rsum fold_right].
    replace (in_simple vs everything x) with true; [cbn; ring|]. symmetry. apply forallb_forall. intros v _. reflexivity.
Qed.

(** ** The theorems *)

(** With exclusive components, [l1] is twice the largest difference up to the tolerance, and never overshoots. *)
Theorem C67_l1_partial se sn vs g h cs ds tol : shallow vs g cs -> shallow vs h ds -> exclusive (mixture cs) -> exclusive (mixture ds) -> 0 <= tol ->
  exists r, l1 se sn g h (Fin tol) = Some (Fin (2 * r)) /\
    (exists A p q, proper vs A /\ prob g A p /\ prob h A q /\ r = p - q) /\
    (forall A p q, proper vs A -> prob g A p -> prob h A q -> p - q <= r + tol * Rsum (map volume cs)).
Proof.
  intros Sg Sh Xc Xd Ht. pose proof Sg as (Nv & Nd & Nc & Hc & Lg & _). pose proof Sh as (_ & _ & Nd' & Hd & Lh & _).
  destruct (l1_spec se sn vs g h cs ds tol Nv Hc Hd Nc Nd' Lg Lh Xc Xd Ht Nd) as (E & H1 & H2 & H3 & H4 & H5).
  exists (total_mass cs (map assign E) - total_mass ds (map assign E)). split; [exact H1|]. pose proof (tiles_proper vs E _ H2 H3 H4) as PE. split.
  - exists (map assign E), (total_mass cs (map assign E)), (total_mass ds (map assign E)). split; [exact PE|]. split; [now apply (prob_mass vs g cs)|]. split; [now apply (prob_mass vs h ds)|reflexivity].
  - intros A p q PA Hp Hq. apply (prob_mass vs g cs _ _ Sg PA) in Hp. apply (prob_mass vs h ds _ _ Sh PA) in Hq. subst p q. apply H5; [now apply proper_real|].
    intros x. split; [apply times_nonneg|now apply proper_times].
Qed.

Theorem C67_exact_partial se sn vs g h cs ds : shallow vs g cs -> shallow vs h ds -> exclusive (mixture cs) -> exclusive (mixture ds) ->
  exists r, farthest vs g h r /\ l1 se sn g h (Fin 0) = Some (Fin (2 * r)).
Proof.
  intros Sg Sh Xc Xd. destruct (C67_l1_partial se sn vs g h cs ds 0 Sg Sh Xc Xd (Rle_refl 0)) as (r & H1 & H2 & H3). exists r. split; [|exact H1].
  split; [exact H2|]. intros A p q PA Hp Hq. specialize (H3 A p q PA Hp Hq). lra.
Qed.

Lemma farthest_sym vs g h cs ds r : shallow vs g cs -> shallow vs h ds -> farthest vs g h r -> farthest vs h g r.
Proof.
  intros Sg Sh [(A & p & q & PA & Hp & Hq & ->) Hmax]. pose proof Sg as (Nv & Nd & _). split.
  - destruct (complement vs A Nv Nd PA) as (A' & PA' & _ & Hx). exists A', (1 - q), (1 - p). split; [exact PA'|].
    apply (prob_mass vs g cs _ _ Sg PA) in Hp. apply (prob_mass vs h ds _ _ Sh PA) in Hq. subst p q.
    split; [|split; [|ring]].
    + apply (prob_mass vs h ds _ _ Sh PA'). now rewrite (complement_mass vs h ds A A').
    + apply (prob_mass vs g cs _ _ Sg PA'). now rewrite (complement_mass vs g cs A A').
  - intros B a b PB Ha Hb. destruct (complement vs B Nv Nd PB) as (B' & PB' & _ & Hx). apply (prob_mass vs h ds _ _ Sh PB) in Ha. apply (prob_mass vs g cs _ _ Sg PB) in Hb. subst a b.
    specialize (Hmax B' (1 - total_mass cs B) (1 - total_mass ds B) PB'). enough (K : 1 - total_mass cs B - (1 - total_mass ds B) <= p - q) by lra. apply Hmax.
    + apply (prob_mass vs g cs _ _ Sg PB'). now rewrite (complement_mass vs g cs B B').
    + apply (prob_mass vs h ds _ _ Sh PB'). now rewrite (complement_mass vs h ds B B').
Qed.

Lemma farthest_unique vs g h r r' : farthest vs g h r -> farthest vs g h r' -> r = r'.
Proof.
  intros [(A & p & q & PA & Hp & Hq & ->) H1] [(B & a & b & PB & Ha & Hb & ->) H2]. apply Rle_antisym; eauto.
Qed.

(** Without tolerance [l1] is a metric between deterministic shallow circuits: non-negative, at most 2, symmetric, zero
    exactly for circuits that give the same probabilities, and it satisfies the triangle inequality. *)
Theorem C67_metric_partial vs g h k cs ds es : shallow vs g cs -> shallow vs h ds -> shallow vs k es ->
  exclusive (mixture cs) -> exclusive (mixture ds) -> exclusive (mixture es) ->
  exists gh hk gk, forall se sn,
    l1 se sn g h (Fin 0) = Some (Fin gh) /\ l1 se sn h g (Fin 0) = Some (Fin gh) /\ 0 <= gh <= 2 /\
    l1 se sn h k (Fin 0) = Some (Fin hk) /\ l1 se sn g k (Fin 0) = Some (Fin gk) /\ gk <= gh + hk /\
    (gh = 0 <-> forall A p q, proper vs A -> prob g A p -> prob h A q -> p = q).
Proof.
  intros Sg Sh Sk Xc Xd Xe.
  destruct (C67_exact_partial empty_store empty_store vs g h cs ds Sg Sh Xc Xd) as (a & Ha & _).
  destruct (C67_exact_partial empty_store empty_store vs h k ds es Sh Sk Xd Xe) as (b & Hb & _).
  destruct (C67_exact_partial empty_store empty_store vs g k cs es Sg Sk Xc Xe) as (c & Hc & _).
  exists (2 * a), (2 * b), (2 * c). intros se sn.
  pose proof (farthest_sym vs g h cs ds a Sg Sh Ha) as Ha'.
  split; [destruct (C67_exact_partial se sn vs g h cs ds Sg Sh Xc Xd) as (r & Hr & ->); now rewrite (farthest_unique vs g h r a Hr Ha)|].
  split; [destruct (C67_exact_partial se sn vs h g ds cs Sh Sg Xd Xc) as (r & Hr & ->); now rewrite (farthest_unique vs h g r a Hr Ha')|].
  assert (Tot : forall g' cs' A, shallow vs g' cs' -> proper vs A -> prob g' A (total_mass cs' A)) by (intros; now apply (prob_mass vs g' cs')).
  assert (H0 : 0 <= a).
  { destruct Ha as [_ Hm]. specialize (Hm [] _ _ (proper_nil vs) (Tot g cs [] Sg (proper_nil vs)) (Tot h ds [] Sh (proper_nil vs))). cbn in Hm. lra. }
  split; [split; [lra|]|].
  { destruct Ha as [(A & p & q & PA & Hp & Hq & ->) _]. apply (prob_mass vs g cs _ _ Sg PA) in Hp. apply (prob_mass vs h ds _ _ Sh PA) in Hq. subst p q.
    destruct (complement vs A (proj1 Sg) (proj1 (proj2 Sg)) PA) as (A' & PA' & RA' & Hx). pose proof (complement_mass vs g cs A A' Sg PA PA' Hx).
    assert (Pos : forall cs' B, Forall (comp_ok vs) cs' -> proper vs B -> 0 <= total_mass cs' B).
    { intros cs' B H1 H2. pose proof (compare_events vs cs' [] B [] 0 (proj1 (proj2 Sg)) H1 (Forall_nil _) (proper_real vs B H2) (Forall_nil _)) as K.
      assert (Z : forall B, total_mass [] B = 0). { intros C. unfold total_mass. induction C as [|e C IH]; [reflexivity|]. cbn [map]. rewrite Rsum_cons, IH. unfold mass. cbn. ring. }
      rewrite !Z in K. change (total_mass cs' []) with 0 in K. enough (0 - 0 <= total_mass cs' B - 0 + 0 * Rsum (map volume cs')) by lra. apply K. intros x.
      change (times vs [] x) with 0. change (height_at [] x) with 0. rewrite Rmult_0_l, Rplus_0_r, !Rminus_0_r. apply Rmult_le_pos; [apply times_nonneg|].
      apply Rsum_nonneg, Forall_map. eapply Forall_impl; [|exact H1]. intros d Hd. apply Rmult_le_pos; [now apply (hgt_nonneg vs)|apply ind_nonneg]. }
    pose proof (Pos cs A' (proj1 (proj2 (proj2 (proj2 Sg)))) PA'). pose proof (Pos ds A (proj1 (proj2 (proj2 (proj2 Sh)))) PA). lra. }
  split; [destruct (C67_exact_partial se sn vs h k ds es Sh Sk Xd Xe) as (r & Hr & ->); now rewrite (farthest_unique vs h k r b Hr Hb)|].
  split; [destruct (C67_exact_partial se sn vs g k cs es Sg Sk Xc Xe) as (r & Hr & ->); now rewrite (farthest_unique vs g k r c Hr Hc)|].
  split.
  - destruct Hc as [(A & p & q & PA & Hp & Hq & ->) _]. pose proof (proj2 Ha A p _ PA Hp (Tot h ds A Sh PA)). pose proof (proj2 Hb A _ q PA (Tot h ds A Sh PA) Hq). lra.
  - split.
    + intros E A p q PA Hp Hq. pose proof (proj2 Ha A p q PA Hp Hq). pose proof (proj2 Ha' A q p PA Hq Hp). lra.
    + intros H. destruct Ha as [(A & p & q & PA & Hp & Hq & ->) _]. rewrite (H A p q PA Hp Hq). ring.
Qed.

(** ** The full statement is false

    A peak inside a wide component: the density is compared at one point of the overlap only.  [peak] is half uniform on
    [[0, 4]] and half uniform on [[3/2, 5/2]], [flat] is uniform on [[0, 4]]. *)
Definition wide : dist := DUnif 0 (iclosed 0 4).
Definition narrow : dist := DUnif 0 (iclosed (3 / 2) (5 / 2)).
Definition half : num := Fin (ln (1 / 2)).
Definition peak_comps : list comp := [(half, [wide]); (half, [narrow])].
Definition flat_comps : list comp := [(Fin 0, [wide])].
Definition peak : graph dist := mkGraph [(0, USum); (1, UProd); (2, UProd); (3, ULeaf wide); (4, ULeaf narrow)]%nat
  [mkEdge 0 1 (Some half); mkEdge 0 2 (Some half); mkEdge 1 3 None; mkEdge 2 4 None]%nat.
Definition flat : graph dist := mkGraph [(0, USum); (1, UProd); (2, ULeaf wide)]%nat [mkEdge 0 1 (Some (Fin 0)); mkEdge 1 2 None]%nat.

Lemma peak_layered : layered_circuit peak (mixture peak_comps).
Proof.
  split; [|split].
  - concrete_wf.
  - intros e d H. repeat destruct H as [<-|H]; cbn; try discriminate. destruct H.
  - exists 0%nat. split; [reflexivity|]. split.
    + exists (fun u => match u with 0 => 0 | 1 | 2 => 1 | _ => 2 end)%nat. split; [reflexivity|]. intros e H _. repeat destruct H as [<-|H]; cbn; try reflexivity. destruct H.
    + unfold peak_comps, mixture, product. cbn [map fst snd]. unf.
Qed.

Lemma flat_layered : layered_circuit flat (mixture flat_comps).
Proof.
  split; [|split].
  - concrete_wf.
  - intros e d H. repeat destruct H as [<-|H]; cbn; try discriminate. destruct H.
  - exists 0%nat. split; [reflexivity|]. split.
    + exists (fun u => u). split; [reflexivity|]. intros e H _. repeat destruct H as [<-|H]; cbn; try reflexivity. destruct H.
    + unfold flat_comps, mixture, product. cbn [map fst snd]. unf.
Qed.

Lemma unif_ok v a b : a < b -> dist_ok (DUnif v (iclosed a b)).
Proof. intros H. exists a, b. auto. Qed.

Lemma one_leaf w d : lw_ok w -> dist_ok d -> uniform d -> dvar d = 0%nat -> comp_ok [0%nat] (w, [d]).
Proof.
  intros H1 H2 H3 H4. split; [exact H1|]. split; [constructor; [auto|constructor]|]. cbn [snd map]. rewrite H4. split; [repeat constructor; intros []|tauto].
Qed.

Lemma wexp_half : wexp half = 1 / 2.
Proof. cbn. rewrite exp_ln; lra. Qed.

Lemma peak_shallow : shallow [0%nat] peak peak_comps.
Proof.
  split; [discriminate|]. split; [repeat constructor; intros []|]. split; [discriminate|]. split; [|split; [exact peak_layered|]].
  - constructor; [|constructor; [|constructor]]; apply one_leaf; try exact Logic.I; try reflexivity; try (apply unif_ok; lra); do 2 eexists; reflexivity.
  - unfold peak_comps. cbn [map fst]. rewrite wexp_half. cbn. lra.
Qed.

Lemma flat_shallow : shallow [0%nat] flat flat_comps.
Proof.
  split; [discriminate|]. split; [repeat constructor; intros []|]. split; [discriminate|]. split; [|split; [exact flat_layered|]].
  - constructor; [|constructor]; apply one_leaf; try exact Logic.I; try reflexivity; try (apply unif_ok; lra); do 2 eexists; reflexivity.
  - cbn. rewrite exp_0. lra.
Qed.

Lemma peak_height x : height_at peak_comps x = 1 / 2 / 4 * ind (in_sint (iclosed 0 4) (x 0%nat)) + 1 / 2 * ind (in_sint (iclosed (3 / 2) (5 / 2)) (x 0%nat)).
Proof.
  unfold height_at, peak_comps. cbn [map]. rewrite !Rsum_cons. unfold hgt, volume, in_comp, width. cbn [snd fst map forallb side wide narrow dvar iclosed lo hi]. rewrite !wexp_half, !andb_true_r.
  cbn [Rsum Rprod fold_right]. field.
Qed.

Lemma flat_height x : height_at flat_comps x = 1 / 4 * ind (in_sint (iclosed 0 4) (x 0%nat)).
Proof.
  unfold height_at, flat_comps. cbn [map]. rewrite !Rsum_cons. unfold hgt, volume, in_comp, width. cbn [snd fst map forallb side wide narrow dvar iclosed lo hi wexp]. rewrite exp_0, !andb_true_r.
  cbn [Rsum Rprod fold_right]. field.
Qed.

Definition on_line (i : sint) : sevent := fun _ => EInt [i].

Lemma on_line_proper i : sint_ok i -> proper [0%nat] [on_line i].
Proof.
  intros H. split.
  - constructor; [|constructor]. intros v _. exists [i]. split; [reflexivity|]. split; [|discriminate]. split; [constructor; [exact H|constructor]|cbn; tauto].
  - intros [|[|i']] [|[|j]] e f x N Hi Hj; try lia; discriminate.
Qed.

Lemma in_on_line i x : times [0%nat] [on_line i] x = ind (in_sint i (x 0%nat)).
Proof. unfold times, in_simple. cbn [map forallb on_line in_evset in_interval existsb]. rewrite orb_false_r, andb_true_r. cbn [Rsum fold_right]. ring. Qed.

Theorem C67_l1_refuted : ~ C67_full.
Proof.
  intros H. destruct (H empty_store empty_store _ _ _ _ _ peak_shallow flat_shallow) as (r & [_ Hmax] & Hl). clear H.
  pose proof peak_shallow as (Nv & Nd & Nc & Hc & Lg & _). pose proof flat_shallow as (_ & _ & Nd' & Hd & Lh & _).
  destruct (higher_sum_gen empty_store empty_store [0%nat] peak flat peak_comps flat_comps 0 Nv Hc Hd Nc Nd' Lg Lh) as (E & Ys & H1 & H2 & H3 & HY & HT).
  assert (HX : forall x, cnt E x = ind (in_sint (iclosed 0 4) (x 0%nat))).
  { intros x. rewrite HT. f_equal. unfold peak_comps, flat_comps in HY. cbn [list_prod map app] in HY.
    inversion HY as [|? Y1 ? Ys1 Y1H HY1]; subst. inversion HY1 as [|? Y2 ? Ys2 Y2H HY2]; subst. inversion HY2; subst. clear HY HY1 HY2.
    destruct Y1H as [[-> HN]|(x0 & Hm & _ & _ & ->)].
    { specialize (HN (fun _ => 1)). exfalso. revert HN. unfold in_comp, in_sint, iclosed, above, below. cbn [forallb snd fst side wide narrow dvar lo hi lc rc iclosed]. rb; cbn [andb]; try lra; intros HN; discriminate. }
    specialize (Hm 0%nat (or_introl eq_refl)).
    assert (E0 : x0 0%nat = 2).
    { rewrite Hm. cbn. unfold sint_empty, sint_inter, nmax_lo, nmin_hi, iclosed. cbn. repeat (rb; try lra; cbn); lra. }
    assert (E1 : Rltb 0 (height_at peak_comps x0 - height_at flat_comps x0) = true).
    { rewrite peak_height, flat_height, E0. unfold in_sint, iclosed, above, below. cbn [lo hi lc rc]. rb; cbn [andb ind] in *; try reflexivity; lra. }
    change [(half, [wide]); (half, [narrow])] with peak_comps. change [(Fin 0, [wide])] with flat_comps. cbn [existsb fst snd]. cbv beta. rewrite E1.
    unfold peak_comps, flat_comps, in_comp. cbn [existsb forallb snd fst side wide narrow dvar]. rewrite !andb_true_r, !orb_false_r.
    destruct Y2H as [[-> _]|(x1 & _ & _ & _ & ->)]; cbv beta; unfold in_comp; cbn [existsb forallb snd fst side wide narrow dvar]; rewrite ?andb_true_r;
    unfold in_sint, iclosed, above, below; cbn [lo hi lc rc]; rb; try lra; cbn; try reflexivity; destruct (Rltb _ _); reflexivity. }
  pose proof (tiles_proper [0%nat] E _ H2 H3 HT) as PE.
  assert (One : forall g' cs', shallow [0%nat] g' cs' -> (forall x, in_sint (iclosed 0 4) (x 0%nat) = false -> height_at cs' x = 0) -> total_mass cs' (map assign E) = 1).
  { intros g' cs' Hs Hz. rewrite <- (everything_mass _ _ _ Hs). pose proof Hs as (_ & _ & _ & Hcs & _). apply (same_mass [0%nat]); auto; [now apply proper_real|apply proper_real, everything_proper|].
    intros x. rewrite (times_cnt [0%nat]) by exact H2. rewrite HX. change everything with (on_line ireals). rewrite in_on_line. destruct (in_sint (iclosed 0 4) (x 0%nat)) eqn:Ex; [cbn; ring|].
    rewrite (Hz x Ex). ring. }
  assert (P1 : total_mass peak_comps (map assign E) = 1).
  { apply (One peak); [exact peak_shallow|]. intros x Hx. rewrite peak_height, Hx. revert Hx. unfold in_sint, iclosed, above, below. cbn [lo hi lc rc]. rb; cbn [andb ind]; try lra; discriminate. }
  assert (Q1 : total_mass flat_comps (map assign E) = 1).
  { apply (One flat); [exact flat_shallow|]. intros x Hx. rewrite flat_height, Hx. cbn. ring. }
  assert (L0 : l1 empty_store empty_store peak flat (Fin 0) = Some (Fin 0)).
  { unfold l1. rewrite H1, (probability_mixture empty_store [0%nat] peak peak_comps), (probability_mixture empty_store [0%nat] flat flat_comps) by auto. rewrite P1, Q1. cbn. do 2 f_equal. ring. }
  rewrite L0 in Hl. assert (r = 0) by (injection Hl; lra). subst r. clear Hl L0.
  assert (Ok : sint_ok (iclosed (3 / 2) (5 / 2))) by (unfold sint_ok, iclosed; cbn; repeat split; try discriminate; left; lra).
  specialize (Hmax _ _ _ (on_line_proper _ Ok) (proj2 (prob_mass _ _ _ _ _ peak_shallow (on_line_proper _ Ok)) eq_refl) (proj2 (prob_mass _ _ _ _ _ flat_shallow (on_line_proper _ Ok)) eq_refl)).
  revert Hmax. unfold total_mass, mass, mixture, product, peak_comps, flat_comps. cbn [map fst snd semR probR wide narrow dvar on_line]. unfold measure, delta. cbn [map lo hi iclosed].
  rewrite !wexp_half. rewrite !(unif_cdf_in 0%nat (iclosed 0 4) 0 4), !(unif_cdf_in 0%nat (iclosed (3 / 2) (5 / 2)) (3 / 2) (5 / 2)) by (try reflexivity; lra).
  cbn [Rsum Rprod fold_right wexp]. rewrite exp_0. lra.
Qed.

(** ** A case that meets the hypotheses

    [stairs] is uniform on [[0, 1]] with weight 1/4 and uniform on [(1, 2]] with weight 3/4; against the uniform
    distribution on [[0, 2]] the L1 metric is 1/2. *)
Definition upper : sint := mkSint (Fin 1) (Fin 2) false true.
Definition stairs_comps : list comp := [(Fin (ln (1 / 4)), [DUnif 0 (iclosed 0 1)]); (Fin (ln (3 / 4)), [DUnif 0 upper])].
Definition level_comps : list comp := [(Fin 0, [DUnif 0 (iclosed 0 2)])].
Definition stairs : graph dist := mkGraph [(0, USum); (1, UProd); (2, UProd); (3, ULeaf (DUnif 0 (iclosed 0 1))); (4, ULeaf (DUnif 0 upper))]%nat
  [mkEdge 0 1 (Some (Fin (ln (1 / 4)))); mkEdge 0 2 (Some (Fin (ln (3 / 4)))); mkEdge 1 3 None; mkEdge 2 4 None]%nat.
Definition level : graph dist := mkGraph [(0, USum); (1, UProd); (2, ULeaf (DUnif 0 (iclosed 0 2)))]%nat [mkEdge 0 1 (Some (Fin 0)); mkEdge 1 2 None]%nat.

Lemma stairs_shallow : shallow [0%nat] stairs stairs_comps.
Proof.
  split; [discriminate|]. split; [repeat constructor; intros []|]. split; [discriminate|]. split; [|split].
  - constructor; [|constructor; [|constructor]]; apply one_leaf; try exact Logic.I; try reflexivity; try (apply unif_ok; lra); try (do 2 eexists; reflexivity).
    exists 1, 2. repeat split; lra.
  - split; [|split].
    + concrete_wf.
    + intros e d H. repeat destruct H as [<-|H]; cbn; try discriminate. destruct H.
    + exists 0%nat. split; [reflexivity|]. split.
      * exists (fun u => match u with 0 => 0 | 1 | 2 => 1 | _ => 2 end)%nat. split; [reflexivity|]. intros e H _. repeat destruct H as [<-|H]; cbn; try reflexivity. destruct H.
      * unfold stairs_comps, mixture, product. cbn [map fst snd]. unf.
  - cbn. rewrite !exp_ln by lra. lra.
Qed.

Lemma level_shallow : shallow [0%nat] level level_comps.
Proof.
  split; [discriminate|]. split; [repeat constructor; intros []|]. split; [discriminate|]. split; [|split].
  - constructor; [|constructor]; apply one_leaf; try exact Logic.I; try reflexivity; try (apply unif_ok; lra); do 2 eexists; reflexivity.
  - split; [|split].
    + concrete_wf.
    + intros e d H. repeat destruct H as [<-|H]; cbn; try discriminate. destruct H.
    + exists 0%nat. split; [reflexivity|]. split.
      * exists (fun u => u). split; [reflexivity|]. intros e H _. repeat destruct H as [<-|H]; cbn; try reflexivity. destruct H.
      * unfold level_comps, mixture, product. cbn [map fst snd]. unf.
  - cbn. rewrite exp_0. lra.
Qed.

Lemma stairs_exclusive : exclusive (mixture stairs_comps).
Proof.
  pose proof stairs_shallow as (_ & _ & _ & Hc & _).
  split; [|cbn; tauto]. intros i j a b x N Hi Hj [Pa Pb].
  assert (K : forall c, In c stairs_comps -> positive (lik (product c) x) -> in_comp c x = true).
  { intros c Ic H. assert (Oc : comp_ok [0%nat] c) by now apply (proj1 (Forall_forall _ _) Hc). destruct (in_comp c x) eqn:E; [reflexivity|]. exfalso. revert H.
    rewrite lik_R.
    - unfold positive, likR. rewrite (product_density [0%nat]) by exact Oc. rewrite E. cbn. lra.
    - destruct Ic as [<-|[<-|[]]]; cbn; repeat split; do 2 eexists; repeat split; lra.
    - destruct Ic as [<-|[<-|[]]]; cbn; tauto.
    - destruct Ic as [<-|[<-|[]]]; cbn; tauto. }
  destruct i as [|[|i]], j as [|[|j]]; cbn [nth_error stairs_comps map mixture] in Hi, Hj; try lia; try (destruct i; discriminate); try (destruct j; discriminate);
  injection Hi as <-; injection Hj as <-; cbn [snd] in Pa, Pb; apply K in Pa; try apply K in Pb; cbn; auto; revert Pa Pb;
  unfold in_comp, in_sint, iclosed, upper, above, below; cbn [forallb snd fst side dvar lo hi lc rc]; rb; cbn [andb]; intros; try discriminate; lra.
Qed.

Lemma level_exclusive : exclusive (mixture level_comps).
Proof. split; [|cbn; tauto]. intros [|i] [|j] a b x N Hi Hj; try lia; try (destruct i; discriminate); destruct j; discriminate. Qed.

Lemma stairs_height x : height_at stairs_comps x = 1 / 4 * ind (in_sint (iclosed 0 1) (x 0%nat)) + 3 / 4 * ind (in_sint upper (x 0%nat)).
Proof.
  unfold height_at, stairs_comps. cbn [map]. rewrite !Rsum_cons. unfold hgt, volume, in_comp, width. cbn [snd fst map forallb side dvar iclosed upper lo hi wexp]. rewrite !exp_ln, !andb_true_r by lra.
  cbn [Rsum Rprod fold_right]. field.
Qed.

Lemma level_height x : height_at level_comps x = 1 / 2 * ind (in_sint (iclosed 0 2) (x 0%nat)).
Proof.
  unfold height_at, level_comps. cbn [map]. rewrite !Rsum_cons. unfold hgt, volume, in_comp, width. cbn [snd fst map forallb side dvar iclosed lo hi wexp]. rewrite exp_0, !andb_true_r.
  cbn [Rsum Rprod fold_right]. field.
Qed.

Example stairs_case se sn : l1 se sn stairs level (Fin 0) = Some (Fin (1 / 2)) /\ farthest [0%nat] stairs level (1 / 4).
Proof.
  destruct (C67_exact_partial se sn [0%nat] stairs level _ _ stairs_shallow level_shallow stairs_exclusive level_exclusive) as (r & Hr & ->).
  enough (r = 1 / 4) as -> by (split; [do 2 f_equal; lra|exact Hr]).
  pose proof stairs_shallow as (Nv & Nd & Nc & Hc & Lg & _). pose proof level_shallow as (_ & _ & Nd' & Hd & Lh & _).
  assert (Ok : sint_ok upper) by (unfold sint_ok, upper; cbn; repeat split; try discriminate; left; lra).
  assert (V : total_mass stairs_comps [on_line upper] - total_mass level_comps [on_line upper] = 1 / 4).
  { unfold total_mass, mass, mixture, product, stairs_comps, level_comps. cbn [map fst snd semR probR dvar on_line]. unfold measure, delta. cbn [map lo hi upper].
    rewrite (unif_cdf_in 0%nat (iclosed 0 1) 0 1 1), !(unif_cdf_in 0%nat upper 1 2), !(unif_cdf_in 0%nat (iclosed 0 2) 0 2) by (try reflexivity; lra).
    replace (cdfR (DUnif 0 (iclosed 0 1)) (Fin 2)) with 1 by (cbn; rewrite Rmin_left; [reflexivity|]; rewrite Rmax_right; lra).
    cbn [Rsum Rprod fold_right wexp]. rewrite exp_0, !exp_ln by lra. lra. }
  apply Rle_antisym.
  - destruct Hr as [(A & p & q & PA & Hp & Hq & ->) _]. apply (prob_mass _ _ _ _ _ stairs_shallow PA) in Hp. apply (prob_mass _ _ _ _ _ level_shallow PA) in Hq. subst p q.
    pose proof (compare_events [0%nat] stairs_comps level_comps [on_line upper] A 0 Nd Hc Hd (proper_real _ _ (on_line_proper _ Ok)) (proper_real _ _ PA)) as K.
    enough (total_mass stairs_comps A - total_mass level_comps A <= total_mass stairs_comps [on_line upper] - total_mass level_comps [on_line upper] + 0 * Rsum (map volume stairs_comps)) by lra.
    apply K. intros x. rewrite in_on_line. pose proof (times_nonneg [0%nat] A x). pose proof (proper_times [0%nat] A x PA). set (t := times [0%nat] A x) in *.
    rewrite stairs_height, level_height. unfold in_sint, iclosed, upper, above, below. cbn [lo hi lc rc]. rb; cbn [andb ind]; lra.
  - destruct Hr as [_ Hmax]. rewrite <- V. apply (Hmax [on_line upper]); [now apply on_line_proper|now apply (prob_mass _ _ _ _ _ stairs_shallow (on_line_proper _ Ok))|now apply (prob_mass _ _ _ _ _ level_shallow (on_line_proper _ Ok))].
Qed.

Example stairs_metric : exists x y z, forall se sn,
  l1 se sn stairs level (Fin 0) = Some (Fin x) /\ l1 se sn level stairs (Fin 0) = Some (Fin x) /\ 0 <= x <= 2 /\
  l1 se sn level stairs (Fin 0) = Some (Fin y) /\ l1 se sn stairs stairs (Fin 0) = Some (Fin z) /\ z <= x + y /\
  (x = 0 <-> forall A p q, proper [0%nat] A -> prob stairs A p -> prob level A q -> p = q).
Proof. exact (C67_metric_partial _ _ _ _ _ _ _ stairs_shallow level_shallow stairs_shallow stairs_exclusive level_exclusive stairs_exclusive). Qed.

Print Assumptions C67_l1_partial.
Print Assumptions C67_exact_partial.
Print Assumptions C67_metric_partial.
Print Assumptions C67_l1_refuted.

(** ** Differences of sets, also of sets of symbols *)
Definition plain_set (A : evset) : Prop := match A with EInt A => interval_ok A | ESym l => NoDup l end.

Lemma singletons_ok l : NoDup l -> interval_ok (map (fun k => isingleton (IZR k)) l).
Proof.
  intros H. split.
  - apply Forall_map, Forall_forall. intros k _. unfold sint_ok, isingleton. cbn. do 4 (split; [discriminate|]). right. exists (IZR k). auto.
  - induction H as [|k l Hk H IH]; [exact I|]. cbn [map disjointed]. split; [|exact IH]. intros j Hj x [X Y]. apply in_map_iff in Hj. destruct Hj as (k' & <- & Hk').
    unfold in_sint, above, below, isingleton in X, Y. cbn [lo hi lc rc] in X, Y. revert X Y. rb; cbn [andb]; try discriminate. intros _ _. apply Hk. assert (E : IZR k = IZR k') by lra. apply eq_IZR in E. now subst k'.
Qed.

Lemma in_singletons l x : in_interval (map (fun k => isingleton (IZR k)) l) x = existsb (fun k => Reqb (IZR k) x) l.
Proof.
  unfold in_interval. induction l as [|k l IH]; [reflexivity|]. cbn [map existsb]. rewrite IH. f_equal. unfold in_sint, above, below, isingleton. cbn [lo hi lc rc]. destruct (Reqb_spec (IZR k) x); rb; cbn [andb]; try reflexivity; lra.
Qed.

(** The points of the difference are the points of the first set that are not in the second. *)
Theorem C67_difference A B x : plain_set A -> plain_set B -> in_evset (evset_minus A B) x = in_evset A x && negb (in_evset B x).
Proof.
  destruct A as [A|l]; intros HA HB.
  - destruct B as [B|m]; cbn [evset_minus in_evset plain_set] in *.
    + now apply in_interval_minus.
    + rewrite in_interval_minus by auto using singletons_ok. now rewrite in_singletons.
  - cbn [evset_minus]. change (in_evset (ESym ?q) x) with (existsb (fun k => Reqb (IZR k) x) q). clear HA. induction l as [|k l IH]; [reflexivity|]. cbn [filter existsb].
    destruct (Reqb_spec (IZR k) x) as [<-|N]; destruct (in_evset B (IZR k)) eqn:E; cbn [negb existsb orb andb].
    + rewrite IH, andb_false_r. reflexivity.
    + destruct (Reqb_spec (IZR k) (IZR k)); [reflexivity|congruence].
    + exact IH.
    + destruct (Reqb_spec (IZR k) x); [contradiction|]. exact IH.
Qed.
Print Assumptions C67_difference.

Example C67_difference_case : evset_minus (ESym [1; 2; 3]%Z) (ESym []) = ESym [1; 2; 3]%Z /\ in_evset (evset_minus (ESym [1; 2]%Z) (ESym [2]%Z)) 2 = false.
Proof.
  split; [reflexivity|]. rewrite C67_difference; cbn [plain_set]; [|repeat constructor; cbn; intuition discriminate|repeat constructor; cbn; intuition discriminate].
  cbn [in_evset existsb]. destruct (Reqb_spec 2 2); [|lra]. cbn [orb negb]. apply andb_false_r.
Qed.
