(** * UniformStar: sums over uniform leaves with disjoint intervals *)
From Coq Require Import List Arith Bool Lia ZArith Reals Lra Permutation.
From Verif Require Import Num Graph GraphFacts Spec SpecFacts Circuit EvalFacts VarFacts Interval Dist DistFacts Simplify ModeFacts TreeProb TreeLocal Layout LayoutFacts Star
  Support SupportFacts PropertiesProb PropertiesSupport BayesNet Nyga NygaFacts.
Import ListNotations.
Local Set Bullet Behavior "Strict Subproofs".
Local Open Scope R_scope.

Definition bounded (i : sint) : Prop := exists a b, lo i = Fin a /\ hi i = Fin b /\ a < b.

Lemma disjoint_empty i j : bounded i -> bounded j -> (forall x, ~ (in_sint i x = true /\ in_sint j x = true)) -> sint_empty (sint_inter i j) = true.
Proof.
  intros (a & b & E1 & E2 & Hab) (c & d & E3 & E4 & Hcd) H.
  assert (N : forall x, in_sint (sint_inter i j) x = false).
  { intros x. rewrite sint_inter_spec by congruence. specialize (H x). destruct (in_sint i x), (in_sint j x); auto; tauto. }
  unfold sint_empty. assert (exists l, fst (nmax_lo i j) = Fin l) as (l & L). { unfold nmax_lo. rewrite E1, E3. destruct (Rltb a c), (Rltb c a); eexists; reflexivity. }
  assert (exists h, fst (nmin_hi i j) = Fin h) as (h & Hh). { unfold nmin_hi. rewrite E2, E4. destruct (Rltb b d), (Rltb d b); eexists; reflexivity. }
  unfold sint_inter. cbn [lo hi lc rc]. rewrite L, Hh. unfold in_sint, above, below, sint_inter in N. cbn [lo hi lc rc] in N. rewrite L, Hh in N.
  destruct (Rltb_spec h l) as [|Hlh]; [reflexivity|]. cbn [orb]. destruct (Reqb_spec l h) as [->|Ne]; cbn [andb].
  - specialize (N h). destruct (snd (nmax_lo i j)), (snd (nmin_hi i j)); try reflexivity. exfalso. destruct (Rleb_spec h h); [discriminate|lra].
  - exfalso. specialize (N ((l + h) / 2)). destruct (snd (nmax_lo i j)), (snd (nmin_hi i j)); revert N; rb; try discriminate; lra.
Qed.

Lemma uniform_supports v l : Forall bounded l -> disjointed l -> forall ws, length ws = length l -> disjoint_supports (star (combine ws (map (DUnif v) l))).
Proof.
  intros Hb Hd ws Hl. unfold star. cbn [disjoint_supports]. split.
  - intros i j x y E F Hij Hx Hy HE HF. rewrite nth_error_map in Hx, Hy.
    assert (G : forall i x E, option_map (fun wd : num * dist => (fst wd, PLeaf (snd wd))) (nth_error (combine ws (map (DUnif v) l)) i) = Some x -> tsupp (snd x) = Some E ->
      exists s, nth_error l i = Some s /\ E = [[(v, EInt [s])]]).
    { clear. intros i x E H HE. revert l i H. induction ws as [|w ws IH]; intros [|s l] [|i] H; try discriminate; cbn [combine map nth_error option_map] in *.
      - injection H as <-. cbn [snd fst] in HE. unfold tsupp in HE. cbn in HE. injection HE as <-. eauto.
      - apply IH in H. exact H. }
    destruct (G _ _ _ Hx HE) as (s & Hs & ->). destruct (G _ _ _ Hy HF) as (s' & Hs' & ->).
    unfold event_inter. cbn [flat_map map app]. unfold box_inter. cbn [fold_left constrain fst snd]. rewrite Nat.eqb_refl. cbn [evset_inter].
    assert (E0 : interval_inter [s] [s'] = []).
    { unfold interval_inter. cbn [flat_map map app filter]. rewrite disjoint_empty; [reflexivity| | |].
      - rewrite Forall_forall in Hb. apply Hb. eapply nth_error_In; eauto.
      - rewrite Forall_forall in Hb. apply Hb. eapply nth_error_In; eauto.
      - clear -Hij Hd Hs Hs'. revert i j Hij Hs Hs'. induction l as [|a l IH]; intros i j Hij Hi Hj; [destruct i; discriminate|]. destruct Hd as [H1 H2]. destruct i as [|i], j as [|j]; cbn [nth_error] in *; [lia| |lia|apply (IH H2 i j); auto; lia].
        injection Hi as <-. apply H1. eapply nth_error_In; eauto. }
    rewrite E0. reflexivity.
  - rewrite map_map. apply fold_and_Forall, Forall_forall. intros wd _. exact I.
Qed.

(** The determinism check of such a circuit succeeds. *)
Lemma uniform_deterministic v l ws st : l <> [] -> Forall bounded l -> disjointed l -> length ws = length l ->
  exists st', is_deterministic (layout (star (combine ws (map (DUnif v) l)))) st = Some (true, st').
Proof.
  intros Hne Hb Hd Hl. set (c := combine ws (map (DUnif v) l)).
  assert (Hc : c <> []) by (unfold c; destruct l; [contradiction|destruct ws; [discriminate|cbn; discriminate]]).
  assert (Hsn := star_nonempty c Hc). assert (T := layout_tree (star c)).
  assert (Hp : products_nonempty (star c)). { unfold star. cbn [products_nonempty]. rewrite map_map. apply fold_and_Forall, Forall_forall. intros wd _. exact I. }
  destruct (is_deterministic_correct (layout (star c)) 0%nat (star c) st) as (b & st' & E & Eb); auto.
  - apply T.
  - apply T.
  - apply layout_leaves_terminal.
  - now apply tree_root.
  - now apply tree_graded.
  - now apply layout_unfolds.
  - exists st'. rewrite E. f_equal. f_equal. apply Eb. now apply uniform_supports.
Qed.

(** ** Piecewise linear functions between neighbouring points *)
Definition clip (x : R) : R := Rmin 1 (Rmax 0 x).

Lemma clip_0 x : x <= 0 -> clip x = 0.
Proof. intros. unfold clip. rewrite Rmax_left by lra. rewrite Rmin_right; lra. Qed.
Lemma clip_1 x : 1 <= x -> clip x = 1.
Proof. intros. unfold clip. rewrite Rmax_right by lra. rewrite Rmin_left; lra. Qed.
Lemma clip_id x : 0 <= x <= 1 -> clip x = x.
Proof. intros. unfold clip. rewrite Rmax_right by lra. rewrite Rmin_right; lra. Qed.

Lemma ratio_0 x a b : a < b -> x <= a -> clip ((x - a) / (b - a)) = 0.
Proof. intros. apply clip_0. apply Rmult_le_reg_r with (b - a); [lra|]. field_simplify; lra. Qed.
Lemma ratio_1 x a b : a < b -> b <= x -> clip ((x - a) / (b - a)) = 1.
Proof. intros. apply clip_1. apply Rmult_le_reg_r with (b - a); [lra|]. field_simplify; lra. Qed.
Lemma ratio_id x a b : a < b -> a <= x <= b -> clip ((x - a) / (b - a)) = (x - a) / (b - a).
Proof. intros. apply clip_id. split; apply Rmult_le_reg_r with (b - a); try lra; field_simplify; lra. Qed.

Fixpoint linear_on (F : R -> R) (l : list R) : Prop :=
  match l with
  | p :: ((q :: _) as t) => (forall x, p <= x <= q -> F x = F p + (F q - F p) * ((x - p) / (q - p))) /\ linear_on F t
  | _ => True
  end.

Definition ends (i : sint) : R * R := match lo i, hi i with Fin a, Fin b => (a, b) | _, _ => (0, 0) end.
Definition ramp (x : R) (i : sint) : R := clip ((x - fst (ends i)) / (snd (ends i) - fst (ends i))).

Lemma uniform_cells_cons p q l : exists i, uniform_cells (p :: q :: l) = i :: uniform_cells (q :: l) /\ lo i = Fin p /\ hi i = Fin q.
Proof. destruct l as [|r l]; eexists; (split; [reflexivity|auto]). Qed.

Lemma last_ge p l : ascending (p :: l) -> p <= last l p.
Proof.
  intros [H _]. destruct l as [|q l]; [cbn; lra|]. left. apply H. clear. revert q. induction l as [|r l IH]; intros q; [now left|]. right. cbn [last]. apply IH.
Qed.
Lemma last_cons p q (l : list R) : last (q :: l) p = last l q.
Proof. revert p q. induction l as [|r l IH]; intros p q; [reflexivity|]. transitivity (last (r :: l) p); [reflexivity|]. now rewrite !IH. Qed.

Lemma Rsum_cons x l : Rsum (x :: l) = x + Rsum l.
Proof. reflexivity. Qed.

Lemma ramps F x l : forall p, ascending (p :: l) -> linear_on F (p :: l) ->
  Rsum (map (fun i => (F (snd (ends i)) - F (fst (ends i))) * ramp x i) (uniform_cells (p :: l))) = F (Rmax p (Rmin x (last l p))) - F p.
Proof.
  induction l as [|q l IH]; intros p Ha Hl.
  - cbn. rewrite Rmax_left; [lra|apply Rmin_r].
  - destruct (uniform_cells_cons p q l) as (i & -> & Ei & Fi). cbn [map]. rewrite Rsum_cons. pose proof Ha as [Hp Hq]. assert (Hpq : p < q) by (apply Hp; now left).
    rewrite IH by (auto; apply Hl). rewrite last_cons. assert (Hq' := last_ge q l Hq). unfold ramp, ends. rewrite Ei, Fi. cbn [fst snd].
    destruct Hl as [Hl _]. destruct (Rle_lt_dec x p) as [X|X]; [|destruct (Rle_lt_dec x q) as [Y|Y]].
    + rewrite ratio_0 by lra. rewrite (Rmin_left x) by lra. rewrite (Rmax_left p), (Rmax_left q) by lra. lra.
    + rewrite ratio_id by lra. rewrite (Rmin_left x) by lra. rewrite (Rmax_right p), (Rmax_left q) by lra. rewrite (Hl x) by lra. lra.
    + rewrite ratio_1 by lra. assert (q <= Rmin x (last l q)) by (apply Rmin_glb; lra). rewrite (Rmax_right p), (Rmax_right q) by lra. lra.
Qed.

Lemma uniform_linear a b l : a < b -> ascending l -> (In a l \/ forall y, In y l -> a <= y) -> (In b l \/ forall y, In y l -> b <= y) ->
  linear_on (fun x => clip ((x - a) / (b - a))) l.
Proof.
  intros Hab. induction l as [|p [|q l] IH]; intros Hs Ha Hb; try exact I. pose proof Hs as [Hp Hq]. pose proof Hq as [Hq' _]. assert (Hpq : p < q) by (apply Hp; now left).
  assert (D : forall c, In c (p :: q :: l) \/ (forall y, In y (p :: q :: l) -> c <= y) -> (c <= p \/ q <= c) /\ (In c (q :: l) \/ forall y, In y (q :: l) -> c <= y)).
  { intros c [[<-|H]|H].
    - split; [left; lra|right]. intros y Hy. left. now apply Hp.
    - split; [right|now left]. destruct H as [<-|H]; [lra|left; auto].
    - split; [left; apply H; now left|right]. intros y Hy. apply H. now right. }
  destruct (D a Ha) as [A1 A2], (D b Hb) as [B1 B2]. split; [|auto]. intros x Hx.
  destruct A1 as [A1|A1]; [destruct B1 as [B1|B1]|].
  - rewrite !ratio_1 by lra. lra.
  - rewrite !ratio_id by lra. field. lra.
  - rewrite !ratio_0 by lra. lra.
Qed.

(** The cdf of a uniform whose bounds are among the points, rebuilt from the cells. *)
Lemma uniform_split v w i l x : dist_ok (DUnif v i) -> ascending l -> In (fst (ends i)) l -> In (snd (ends i)) l -> x <> NaN ->
  cdfR (DUnif v i) x = Rsum (map (fun c => cdfR (DUnif w c) x * delta (cdfR (DUnif v i)) c) (uniform_cells l)).
Proof.
  intros (a & b & Ea & Eb & Hab) Hs Ha Hb Hx. unfold ends in Ha, Hb. rewrite Ea, Eb in Ha, Hb. cbn [fst snd] in Ha, Hb.
  set (F := fun x => clip ((x - a) / (b - a))). assert (EF : forall r, cdfR (DUnif v i) (Fin r) = F r) by (intros r; cbn; now rewrite Ea, Eb).
  assert (B : Forall (fun c => exists p q, lo c = Fin p /\ hi c = Fin q /\ p < q /\ In q l) (uniform_cells l)).
  { clear -Hs. induction l as [|p [|q l] IH]; try constructor. pose proof Hs as [Hp Hq]. destruct (uniform_cells_cons p q l) as (c & E & E1 & E2). rewrite E. constructor.
    - exists p, q. repeat split; auto. apply Hp; now left. now right; left.
    - eapply Forall_impl; [|exact (IH Hq)]. cbn. intros c' (p' & q' & ? & ? & ? & ?). exists p', q'. repeat split; auto; right; auto. }
  rewrite Forall_forall in B.
  assert (C : forall r, Rsum (map (fun c => cdfR (DUnif w c) (Fin r) * delta (cdfR (DUnif v i)) c) (uniform_cells l)) = F r).
  { intros r. destruct l as [|p l]; [destruct Ha|]. 
    transitivity (Rsum (map (fun c => (F (snd (ends c)) - F (fst (ends c))) * ramp r c) (uniform_cells (p :: l)))).
    - apply Rsum_ext. intros c Hc. destruct (B c Hc) as (p' & q' & E1 & E2 & Hlt & _). unfold delta. rewrite E1, E2, !EF. unfold ramp, ends. cbn [cdfR]. rewrite E1, E2. cbn [fst snd]. unfold clip. ring.
    - rewrite ramps; auto; [|apply uniform_linear; auto]. pose proof (last_ge p l Hs) as HL. assert (Hpa : p <= a) by (destruct Ha as [->|Ha]; [lra|left; now apply (proj1 Hs)]).
      assert (HLb : b <= last l p). { clear -Hb Hs. revert p Hs Hb. induction l as [|q l IH]; intros p Hs Hb; [destruct Hb as [<-|[]]; cbn; lra|]. rewrite last_cons. destruct Hb as [->|Hb]; [|apply IH; auto; apply Hs].
        apply Rle_trans with q; [left; apply (proj1 Hs); now left|apply last_ge, Hs]. }
      unfold F at 2. rewrite (ratio_0 p) by lra. rewrite Rminus_0_r. unfold F. destruct (Rle_lt_dec r p) as [X|X]; [|destruct (Rle_lt_dec r (last l p)) as [Y|Y]].
      + rewrite Rmin_left, Rmax_left by lra. rewrite !ratio_0; lra.
      + rewrite Rmin_left, Rmax_right by lra. reflexivity.
      + rewrite Rmin_right, Rmax_right by lra. rewrite !ratio_1; lra. }
  destruct x as [| |r|]; [tauto| |now rewrite EF, C|].
  - rewrite cdfR_NInf by (cbn; eauto). symmetry. apply Rsum_zero. intros c Hc. destruct (B c Hc) as (p' & q' & E1 & E2 & Hlt & _). rewrite (cdfR_NInf (DUnif w c)) by (cbn; eauto). lra.
  - rewrite cdfR_PInf by (cbn; eauto). destruct l as [|p l]; [destruct Ha|]. pose proof (C (Rmax b (last l p))) as C'. unfold F in C'. rewrite ratio_1 in C' by (auto; apply Rmax_l). rewrite <- C'. apply Rsum_ext. intros c Hc. destruct (B c Hc) as (p' & q' & E1 & E2 & Hlt & Hin).
    rewrite (cdfR_PInf (DUnif w c)) by (cbn; eauto). f_equal. cbn [cdfR]. rewrite E1, E2. change (clip ((Rmax b (last l p) - p') / (q' - p')) = 1). apply ratio_1; auto. eapply Rle_trans; [|apply Rmax_r].
    clear -Hin Hs. revert p Hs Hin. induction l as [|q l IH]; intros p Hs Hin; [destruct Hin as [<-|[]]; cbn; lra|]. rewrite last_cons. destruct Hin as [->|Hin]; [|apply IH; auto; apply Hs].
    apply Rle_trans with q; [left; apply (proj1 Hs); now left|apply last_ge, Hs].
Qed.
