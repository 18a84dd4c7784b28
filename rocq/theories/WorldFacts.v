(** * WorldFacts: calls on one circuit do not disturb another

    Proof file. *)
From Coq Require Import List Arith Bool Lia ZArith Reals.
From Verif Require Import Num Graph GraphFacts Spec SpecFacts Circuit Interval Dist DistFacts Simplify Conditional
  Rename Copy CopyFacts Heap HeapFacts HeapOps World.
Import ListNotations.
Local Open Scope nat_scope.

(** References exist, every circuit lists its units once, and no unit belongs to two circuits (PC.py:28-60: a unit has one
    circuit). *)
Record world_ok (W : world) : Prop := {
  wo_heap : heap_ok (w_heap W);
  wo_circ : forall i c, nth_error (w_circs W) i = Some c -> in_heap (w_heap W) c /\ NoDup (c_units c);
  wo_units : forall i j c c', nth_error (w_circs W) i = Some c -> nth_error (w_circs W) j = Some c' -> i <> j ->
    forall u, In u (c_units c) -> ~ In u (c_units c') }.

Lemma world_circ_ok W i c : world_ok W -> nth_error (w_circs W) i = Some c -> circ_ok (w_heap W) c.
Proof. intros [O C _] E. destruct (C i c E). split; auto. Qed.

(** The circuits [p] and [k] hold no common distribution object. *)
Definition no_common (W : world) (p k : nat) : Prop :=
  forall c c' a, nth_error (w_circs W) p = Some c -> nth_error (w_circs W) k = Some c' ->
    holds (w_heap W) c a -> ~ holds (w_heap W) c' a.

Lemma no_common_sym W p k : no_common W p k -> no_common W k p.
Proof. intros N c c' a E E' Hc Hc'. exact (N c' c a E' E Hc' Hc). Qed.

Lemma holds_unchanged (A : nat -> Prop) (U : nat -> Prop) H H' c a : frame U A H H' -> in_heap H c ->
  (forall u, In u (c_units c) -> ~ U u) -> (holds H' c a <-> holds H c a).
Proof.
  intros F I N. split; intros (u & Hu & E); exists u; (split; [exact Hu|]).
  - now rewrite <- (fr_units _ _ _ _ F u (I u Hu) (N u Hu)).
  - now rewrite (fr_units _ _ _ _ F u (I u Hu) (N u Hu)).
Qed.

Section Calls.
Variable W : world.
Hypothesis K : world_ok W.

Lemma in_place_spec i o W' : w_in_place W i o = Some W' ->
  exists c H' c', nth_error (w_circs W) i = Some c /\ W' = mkWorld H' (set_nth (w_circs W) i c') /\ ostep (w_heap W) c H' c'.
Proof.
  unfold w_in_place. destruct (nth_error (w_circs W) i) as [c|] eqn:E; [|discriminate].
  destruct (run_op (w_heap W, c) o) as [[H' c']|] eqn:R; [|discriminate]. intros X. injection X as <-.
  exists c, H', c'. split; [reflexivity|]. split; [reflexivity|].
  exact (run_op_step _ _ _ _ _ (world_circ_ok W i c K E) R).
Qed.

Lemma in_place_ok i o W' : w_in_place W i o = Some W' -> world_ok W'.
Proof.
  intros E. destruct (in_place_spec i o W' E) as (c & H' & c' & Ec & -> & (S & N)).
  assert (Li : i < List.length (w_circs W)) by (apply nth_error_Some; congruence).
  destruct K as [O C D]. constructor; cbn [w_heap w_circs].
  - exact (st_ok _ _ _ _ S).
  - intros j cj Ej. destruct (Nat.eq_dec i j) as [<-|Nij].
    + rewrite set_nth_same in Ej by exact Li. injection Ej as <-. split; [exact (st_in _ _ _ _ S)|exact N].
    + rewrite set_nth_other in Ej by exact Nij. destruct (C j cj Ej) as [Ij Nj]. split; [|exact Nj].
      exact (in_heap_mono _ _ _ _ _ (st_frame _ _ _ _ S) Ij).
  - assert (G : forall j cj, nth_error (w_circs W) j = Some cj -> i <> j -> forall u, In u (c_units c') -> ~ In u (c_units cj)).
    { intros j cj Ej Nij u Hu Hu'. destruct (C j cj Ej) as [Ij _]. pose proof (st_units _ _ _ _ S u Hu (Ij u Hu')) as Hc.
      exact (D i j c cj Ec Ej Nij u Hc Hu'). }
    intros j k cj ck Ej Ek Njk. destruct (Nat.eq_dec i j) as [<-|Nij].
    + rewrite set_nth_same in Ej by exact Li. injection Ej as <-. rewrite set_nth_other in Ek by exact Njk. exact (G k ck Ek Njk).
    + rewrite set_nth_other in Ej by exact Nij. destruct (Nat.eq_dec i k) as [<-|Nik].
      * rewrite set_nth_same in Ek by exact Li. injection Ek as <-. intros u Hu Hu'. exact (G j cj Ej Nij u Hu' Hu).
      * rewrite set_nth_other in Ek by exact Nik. exact (D j k cj ck Ej Ek Njk).
Qed.

(** What a call on [i] means for the other circuits. *)
Lemma in_place_other i o W' p : w_in_place W i o = Some W' -> p <> i -> no_common W p i ->
  nth_error (w_circs W') p = nth_error (w_circs W) p /\ w_view W' p = w_view W p /\ no_common W' p i.
Proof.
  intros E Npi NC. destruct (in_place_spec i o W' E) as (c & H' & c' & Ec & -> & (S & N)).
  assert (Li : i < List.length (w_circs W)) by (apply nth_error_Some; congruence).
  assert (EN : nth_error (w_circs (mkWorld H' (set_nth (w_circs W) i c'))) p = nth_error (w_circs W) p).
  { cbn. apply set_nth_other. congruence. }
  assert (AP : forall cp, nth_error (w_circs W) p = Some cp -> apart (w_heap W) cp c).
  { intros cp Ep. split; [exact (wo_units _ K p i cp c Ep Ec Npi)|]. intros a. exact (NC cp c a Ep Ec). }
  split; [exact EN|]. split.
  - unfold w_view. rewrite EN. destruct (nth_error (w_circs W) p) as [cp|] eqn:Ep; [|reflexivity]. cbn [w_heap].
    exact (step_view _ _ _ _ _ (wo_heap _ K) (proj1 (wo_circ _ K p cp Ep)) (AP cp eq_refl) S).
  - intros cp ci a Ep Ei. rewrite EN in Ep. cbn [w_circs w_heap] in *. rewrite set_nth_same in Ei by exact Li. injection Ei as <-.
    destruct (step_apart _ _ _ _ cp (wo_heap _ K) (proj1 (wo_circ _ K p cp Ep)) (AP cp Ep) S) as [_ [_ X]]. exact (X a).
Qed.

(** Two circuits other than [i] keep what they hold. *)
Lemma in_place_others i o W' p k : w_in_place W i o = Some W' -> p <> i -> k <> i -> no_common W p k -> no_common W' p k.
Proof.
  intros E Npi Nki NC. destruct (in_place_spec i o W' E) as (c & H' & c' & Ec & -> & (S & N)).
  intros cp ck a Ep Ek. cbn [w_circs w_heap] in *. rewrite set_nth_other in Ep, Ek by congruence.
  rewrite (holds_unchanged _ _ _ _ cp a (st_frame _ _ _ _ S) (proj1 (wo_circ _ K p cp Ep)) (wo_units _ K p i cp c Ep Ec Npi)).
  rewrite (holds_unchanged _ _ _ _ ck a (st_frame _ _ _ _ S) (proj1 (wo_circ _ K k ck Ek)) (wo_units _ K k i ck c Ek Ec Nki)).
  exact (NC cp ck a Ep Ek).
Qed.

Lemma copy_spec i W' : w_copy W i = Some W' ->
  exists c H' c', nth_error (w_circs W) i = Some c /\ W' = mkWorld H' (w_circs W ++ [c']) /\ h_copy (w_heap W) c = Some (H', c') /\
    ostep (w_heap W) no_circ H' c'.
Proof.
  unfold w_copy. destruct (nth_error (w_circs W) i) as [c|] eqn:E; [|discriminate].
  destruct (h_copy (w_heap W) c) as [[H' c']|] eqn:R; [|discriminate]. intros X. injection X as <-.
  exists c, H', c'. split; [reflexivity|]. split; [reflexivity|]. split; [exact R|].
  exact (h_copy_step _ _ _ _ (world_circ_ok W i c K E) R).
Qed.

Lemma nth_snoc {A} (l : list A) x j y : nth_error (l ++ [x]) j = Some y ->
  (j < List.length l /\ nth_error l j = Some y) \/ (j = List.length l /\ y = x).
Proof.
  intros E. destruct (Nat.lt_ge_cases j (List.length l)) as [L|L].
  - left. rewrite nth_error_app1 in E by exact L. auto.
  - right. rewrite nth_error_app2 in E by exact L. destruct (j - List.length l) as [|m] eqn:Em; cbn in E.
    + injection E as ->. split; [lia|reflexivity].
    + destruct m; discriminate.
Qed.

Lemma copy_ok i W' : w_copy W i = Some W' -> world_ok W'.
Proof.
  intros E. destruct (copy_spec i W' E) as (c & H' & c' & Ec & -> & _ & (S & N)).
  destruct (new_in _ _ _ S) as [NU NA]. destruct K as [O C D]. constructor; cbn [w_heap w_circs].
  - exact (st_ok _ _ _ _ S).
  - intros j cj Ej. apply nth_snoc in Ej. destruct Ej as [[Lj Ej]|[-> ->]].
    + destruct (C j cj Ej) as [Ij Nj]. split; [exact (in_heap_mono _ _ _ _ _ (st_frame _ _ _ _ S) Ij)|exact Nj].
    + split; [exact (st_in _ _ _ _ S)|exact N].
  - assert (G : forall j cj, nth_error (w_circs W) j = Some cj -> forall u, In u (c_units c') -> ~ In u (c_units cj)).
    { intros j cj Ej u Hu Hu'. destruct (C j cj Ej) as [Ij _]. specialize (Ij u Hu'). specialize (NU u Hu). lia. }
    intros j k cj ck Ej Ek Njk. apply nth_snoc in Ej. apply nth_snoc in Ek.
    destruct Ej as [[Lj Ej]|[-> ->]], Ek as [[Lk Ek]|[-> ->]].
    + exact (D j k cj ck Ej Ek Njk).
    + intros u Hu Hu'. exact (G j cj Ej u Hu' Hu).
    + exact (G k ck Ek).
    + congruence.
Qed.

Lemma copy_other i W' p : w_copy W i = Some W' -> p < List.length (w_circs W) ->
  nth_error (w_circs W') p = nth_error (w_circs W) p /\ w_view W' p = w_view W p /\
  no_common W' p (List.length (w_circs W)) /\ (forall k, k < List.length (w_circs W) -> no_common W p k -> no_common W' p k).
Proof.
  intros E L. destruct (copy_spec i W' E) as (c & H' & c' & Ec & -> & _ & (S & N)).
  destruct (new_in _ _ _ S) as [NU NA]. pose proof (frame_none' _ _ _ S) as F.
  assert (EN : forall q, q < List.length (w_circs W) -> nth_error (w_circs (mkWorld H' (w_circs W ++ [c']))) q = nth_error (w_circs W) q).
  { intros q Lq. cbn. now apply nth_error_app1. }
  assert (HU : forall q cq a, nth_error (w_circs W) q = Some cq -> holds H' cq a <-> holds (w_heap W) cq a).
  { intros q cq a Eq. exact (holds_unchanged _ _ _ _ cq a F (proj1 (wo_circ _ K q cq Eq)) (fun _ _ x => x)). }
  split; [exact (EN p L)|]. split; [|split].
  - unfold w_view. rewrite (EN p L). destruct (nth_error (w_circs W) p) as [cp|] eqn:Ep; [|reflexivity]. cbn [w_heap].
    exact (view_frame _ _ _ _ cp (wo_heap _ K) F (proj1 (wo_circ _ K p cp Ep)) (fun _ _ x => x) (fun _ _ x => x)).
  - intros cp cn a Ep En. rewrite (EN p L) in Ep. cbn [w_circs w_heap] in *. rewrite nth_error_app2 in En by lia.
    rewrite Nat.sub_diag in En. cbn in En. injection En as <-. rewrite (HU p cp a Ep). intros (u & Hu & Eu) Ha.
    pose proof (proj2 (wo_heap _ K) u a Eu). specialize (NA a Ha). lia.
  - intros k Lk NC cp ck a Ep Ek. rewrite (EN p L) in Ep. rewrite (EN k Lk) in Ek. cbn [w_heap].
    rewrite (HU p cp a Ep), (HU k ck a Ek). exact (NC cp ck a Ep Ek).
Qed.

Lemma in_place_len i o W' : w_in_place W i o = Some W' -> List.length (w_circs W') = List.length (w_circs W).
Proof. intros E. destruct (in_place_spec i o W' E) as (c & H' & c' & _ & -> & _). apply set_nth_length. Qed.

Lemma copy_len i W' : w_copy W i = Some W' -> List.length (w_circs W') = S (List.length (w_circs W)).
Proof. intros E. destruct (copy_spec i W' E) as (c & H' & c' & _ & -> & _). cbn. rewrite app_length. cbn. lia. Qed.
End Calls.

(** A circuit [p] is safe from the targets [A]: it shares nothing with them. *)
Definition safe (A : nat -> Prop) (W : world) (p : nat) : Prop :=
  world_ok W /\ p < List.length (w_circs W) /\ forall k, A k -> k <> p -> k < List.length (w_circs W) -> no_common W p k.

(** The in-place calls of the program go to circuits of [A]. *)
Definition targets (A : nat -> Prop) (a : action) : Prop := match a with ActInPlace i _ => A i | _ => True end.

Lemma safe_copy (A : nat -> Prop) W p i W' : safe A W p -> w_copy W i = Some W' ->
  safe A W' p /\ nth_error (w_circs W') p = nth_error (w_circs W) p /\ w_view W' p = w_view W p.
Proof.
  intros (K & L & S) E. destruct (copy_other W K i W' p E L) as (E1 & E2 & E3 & E4).
  split; [|auto]. split; [exact (copy_ok W K i W' E)|]. pose proof (copy_len W K i W' E) as LN. split; [lia|].
  intros k Ak Nk Lk. destruct (Nat.eq_dec k (List.length (w_circs W))) as [->|N]; [exact E3|].
  assert (Lk' : k < List.length (w_circs W)) by lia. exact (E4 k Lk' (S k Ak Nk Lk')).
Qed.

Lemma safe_in_place (A : nat -> Prop) W p i o W' : safe A W p -> A i -> i <> p -> w_in_place W i o = Some W' ->
  safe A W' p /\ nth_error (w_circs W') p = nth_error (w_circs W) p /\ w_view W' p = w_view W p.
Proof.
  intros (K & L & S) Ai Ni E.
  assert (Li : i < List.length (w_circs W)).
  { destruct (in_place_spec W K i o W' E) as (c & H' & c' & Ec & _). apply nth_error_Some. congruence. }
  destruct (in_place_other W K i o W' p E (not_eq_sym Ni) (S i Ai Ni Li)) as (E1 & E2 & E3).
  split; [|auto]. split; [exact (in_place_ok W K i o W' E)|]. pose proof (in_place_len W K i o W' E) as LN. split; [lia|].
  intros k Ak Nk Lk. destruct (Nat.eq_dec k i) as [->|N]; [exact E3|].
  rewrite LN in Lk. exact (in_place_others W K i o W' p k E (not_eq_sym Ni) N (S k Ak Nk Lk)).
Qed.

(** Copy, then in place on the copy. *)
Lemma safe_derive (A : nat -> Prop) W p i o W1 W' : safe A W p -> w_copy W i = Some W1 ->
  w_in_place W1 (List.length (w_circs W)) o = Some W' ->
  safe A W' p /\ nth_error (w_circs W') p = nth_error (w_circs W) p /\ w_view W' p = w_view W p.
Proof.
  intros (K & L & S) E1 E2. set (n := List.length (w_circs W)) in *.
  assert (S2 : safe (fun k => A k \/ k = n) W1 p).
  { destruct (copy_other W K i W1 p E1 L) as (_ & _ & E3 & E4).
    split; [exact (copy_ok W K i W1 E1)|]. pose proof (copy_len W K i W1 E1) as LN. split; [unfold n in *; lia|].
    intros k Ak Nk Lk. destruct (Nat.eq_dec k n) as [->|N]; [exact E3|]. destruct Ak as [Ak|Ak]; [|congruence].
    assert (Lk' : k < n) by (unfold n in *; lia). exact (E4 k Lk' (S k Ak Nk Lk')). }
  destruct (safe_in_place _ W1 p n o W' S2 (or_intror eq_refl)) as ((K3 & L3 & S3) & E3 & V3); [unfold n; lia|exact E2|].
  destruct (copy_other W K i W1 p E1 L) as (E4 & V4 & _).
  split; [|split; congruence]. split; [exact K3|]. split; [exact L3|]. intros k Ak. apply S3. now left.
Qed.

Lemma safe_act (A : nat -> Prop) W p a W' : safe A W p -> targets A a -> (forall i o, a = ActInPlace i o -> i <> p) ->
  act W a = Some W' -> safe A W' p /\ nth_error (w_circs W') p = nth_error (w_circs W) p /\ w_view W' p = w_view W p.
Proof.
  intros S T N E. destruct a as [i|i o|i es sts|i vs]; cbn [act targets] in *.
  - exact (safe_copy A W p i W' S E).
  - exact (safe_in_place A W p i o W' S T (N i o eq_refl) E).
  - unfold w_log_conditional in E. destruct (w_copy W i) as [W1|] eqn:E1; [|discriminate]. exact (safe_derive A W p i _ W1 W' S E1 E).
  - unfold w_marginal in E. destruct (w_copy W i) as [W1|] eqn:E1; [|discriminate]. exact (safe_derive A W p i _ W1 W' S E1 E).
Qed.

Lemma safe_program (A : nat -> Prop) l : forall W p W', safe A W p -> Forall (targets A) l ->
  Forall (fun a => forall o, a <> ActInPlace p o) l -> program l W = Some W' ->
  nth_error (w_circs W') p = nth_error (w_circs W) p /\ w_view W' p = w_view W p.
Proof.
  induction l as [|a l IH]; intros W p W' S T N E; unfold program in E; cbn [foldM] in E; [injection E as <-; auto|].
  inversion T as [|x y T1 T2]; subst. inversion N as [|x y N1 N2]; subst.
  destruct (act W a) as [W1|] eqn:E1; [|discriminate].
  destruct (safe_act A W p a W1 S T1) as (S1 & C1 & V1); [intros i o -> ->; exact (N1 o eq_refl)|exact E1|].
  destruct (IH W1 p W' S1 T2 N2 E) as [C2 V2]. split; congruence.
Qed.
