(** * UniformMeasureFacts: intervals, weights and trees of uniform measures *)
From Coq Require Import List Arith Bool Lia Reals Lra ZArith Permutation.
From Verif Require Import Num Graph GraphFacts Spec SpecFacts Circuit EvalFacts VarFacts Interval GaussInt Dist DistFacts CondFacts
  TreeProb Simplify SimplifyFacts TreeLocal NormalizeFacts Layout LayoutFacts Star Conditional LeafCond BayesNet UniformStar UniformMeasure.
Import ListNotations.
Local Set Bullet Behavior "Strict Subproofs".
Local Open Scope R_scope.

(** ** The weights are what [SumUnit.normalize] leaves in the circuit *)
Lemma star_set_weights f (l : list (num * dist)) : set_weights 0%nat f (layout (star l)) = layout (star (map (fun wd => (f (fst wd), snd wd)) l)).
Proof.
  rewrite !layout_star. unfold set_weights. cbn [g_nodes g_edges].
  assert (G : forall n, map (fun e => if (e_src e =? 0)%nat then mkEdge (e_src e) (e_dst e) (option_map f (e_lw e)) else e) (leaf_edges 0%nat n l) = leaf_edges 0%nat n (map (fun wd => (f (fst wd), snd wd)) l)).
  { induction l as [|wd l IH]; intros n; [reflexivity|]. cbn [leaf_edges map e_src e_dst e_lw option_map Nat.eqb fst]. now rewrite IH. }
  rewrite G. f_equal. f_equal. generalize 1%nat. clear G. induction l as [|wd l IH]; intros n; [reflexivity|]. cbn [leaf_nodes map snd]. now rewrite IH.
Qed.

Lemma unit_normalised l : sum_normalize (layout (star l)) 0%nat = match normalised_parts l with Some l' => Some (layout (star l')) | None => None end.
Proof.
  unfold sum_normalize. pose proof (lws_weights (layout (star l)) 0%nat) as Hl.
  assert (Ew : weights_of (layout (star l)) 0%nat = Some (map fst l)).
  { unfold weights_of, out_edges. rewrite layout_star. cbn [g_edges]. rewrite leaf_edges_out. clear. generalize 1%nat. unfold mapM.
    induction l as [|wd l IH]; intros n; [reflexivity|]. cbn [leaf_edges fold_right map e_lw]. now rewrite IH. }
  destruct (log_weighted_subcircuits (layout (star l)) 0%nat) as [q|]; [|congruence]. rewrite Hl in Ew. injection Ew as Ew.
  destruct l as [|wd l']; [now destruct q|]. destruct q as [|p q]; [discriminate|]. cbn [normalised_parts]. rewrite Ew. f_equal. apply star_set_weights.
Qed.

(** ** Intervals *)
Definition len (i : sint) : R := match lo i, hi i with Fin a, Fin b => b - a | _, _ => 0 end.

Lemma inside_ends c a b : sint_ok c -> (forall x, in_sint c x = true -> a <= x <= b) -> exists l h, lo c = Fin l /\ hi c = Fin h /\ a <= l /\ l <= h /\ h <= b.
Proof.
  destruct c as [cl ch lcc rcc]. unfold sint_ok. cbn [lo hi lc rc]. intros (N1 & N2 & N3 & N4 & H) Hx. unfold in_sint, above, below in Hx. cbn [lo hi lc rc] in Hx.
  destruct cl as [| |l|], ch as [| |h|]; try (exfalso; auto; fail).
  - exfalso. destruct H as [_|(z & ? & _)]; [|discriminate]. specialize (Hx (Rmin (h - 1) (a - 1))).
    assert (Y : a <= Rmin (h - 1) (a - 1) <= b).
    { apply Hx. pose proof (Rmin_l (h - 1) (a - 1)). destruct rcc; rb; auto; lra. }
    pose proof (Rmin_r (h - 1) (a - 1)). lra.
  - exfalso. specialize (Hx (b + 1) eq_refl). lra.
  - exists l, h. split; [reflexivity|]. split; [reflexivity|]. assert (Hlh : l <= h) by (destruct H as [H|(z & E1 & E2 & _)]; [cbn in H; lra|injection E1 as ->; injection E2 as ->; lra]).
    split; [|split; [exact Hlh|]].
    + destruct (Rle_dec a l) as [|Hn]; [assumption|]. exfalso. destruct H as [H|(z & E1 & E2 & -> & ->)].
      * cbn in H. set (y := Rmin ((l + h) / 2) ((l + a) / 2)). assert (Y : a <= y <= b).
        { apply Hx. unfold y. pose proof (Rmin_l ((l + h) / 2) ((l + a) / 2)). assert (l < Rmin ((l + h) / 2) ((l + a) / 2)) by (apply Rmin_glb_lt; lra).
          destruct lcc, rcc; rb; auto; lra. }
        unfold y in Y. pose proof (Rmin_r ((l + h) / 2) ((l + a) / 2)). lra.
      * injection E1 as ->. specialize (Hx z). assert (a <= z <= b) by (apply Hx; rb; auto; lra). lra.
    + destruct (Rle_dec h b) as [|Hn]; [assumption|]. exfalso. destruct H as [H|(z & E1 & E2 & -> & ->)].
      * cbn in H. set (y := Rmax ((l + h) / 2) ((h + b) / 2)). assert (Y : a <= y <= b).
        { apply Hx. unfold y. pose proof (Rmax_l ((l + h) / 2) ((h + b) / 2)). assert (Rmax ((l + h) / 2) ((h + b) / 2) < h) by (apply Rmax_lub_lt; lra).
          destruct lcc, rcc; rb; auto; lra. }
        unfold y in Y. pose proof (Rmax_r ((l + h) / 2) ((h + b) / 2)). lra.
      * injection E2 as ->. specialize (Hx z). assert (a <= z <= b) by (apply Hx; rb; auto; lra). lra.
  - exfalso. destruct H as [_|(z & _ & ? & _)]; [|discriminate]. specialize (Hx (Rmax (l + 1) (b + 1))).
    assert (Y : a <= Rmax (l + 1) (b + 1) <= b).
    { apply Hx. pose proof (Rmax_l (l + 1) (b + 1)). destruct lcc; rb; auto; lra. }
    pose proof (Rmax_r (l + 1) (b + 1)). lra.
Qed.

Lemma in_bounds i a b x : lo i = Fin a -> hi i = Fin b -> in_sint i x = true -> a <= x <= b.
Proof. intros E1 E2. unfold in_sint, above, below. rewrite E1, E2. destruct (lc i), (rc i); rb; cbn; try discriminate; lra. Qed.

Lemma uniform_inside v i c : bounded i -> sint_ok c -> (forall x, in_sint c x = true -> in_sint i x = true) -> delta (cdfR (DUnif v i)) c = len c / len i.
Proof.
  intros (a & b & E1 & E2 & Hab) Hc H. destruct (inside_ends c a b Hc) as (l & h & F1 & F2 & G1 & G2 & G3); [intros x Hx; eapply in_bounds; eauto|].
  unfold delta, len. cbn [cdfR]. rewrite E1, E2, F1, F2. change (Rmin 1 (Rmax 0 ((h - a) / (b - a)))) with (clip ((h - a) / (b - a))).
  change (Rmin 1 (Rmax 0 ((l - a) / (b - a)))) with (clip ((l - a) / (b - a))). rewrite !ratio_id by lra. field. lra.
Qed.

Lemma uniform_outside v i c : bounded i -> sint_ok c -> (exists l h, lo c = Fin l /\ hi c = Fin h) -> (forall x, ~ (in_sint c x = true /\ in_sint i x = true)) -> delta (cdfR (DUnif v i)) c = 0.
Proof.
  intros (a & b & E1 & E2 & Hab) Hc (l & h & F1 & F2) H. unfold delta. cbn [cdfR]. rewrite E1, E2, F1, F2. change (Rmin 1 (Rmax 0 ((h - a) / (b - a)))) with (clip ((h - a) / (b - a))).
  change (Rmin 1 (Rmax 0 ((l - a) / (b - a)))) with (clip ((l - a) / (b - a))). destruct Hc as (_ & _ & _ & _ & Hc). rewrite F1, F2 in Hc. cbn [nlt] in Hc.
  destruct Hc as [Hlh|(z & Z1 & Z2 & _)]; [|injection Z1 as ->; injection Z2 as ->; lra].
  assert (D : h <= a \/ b <= l).
  { destruct (Rle_dec h a) as [|Hn]; [now left|]. destruct (Rle_dec b l) as [|Hm]; [now right|]. exfalso.
    assert (Hpq : Rmax a l < Rmin b h) by (apply Rmax_lub_lt; apply Rmin_glb_lt; lra).
    pose proof (Rmax_l a l). pose proof (Rmax_r a l). pose proof (Rmin_l b h). pose proof (Rmin_r b h). set (p := Rmax a l) in *. set (q := Rmin b h) in *. clearbody p q. apply (H ((p + q) / 2)).
    unfold in_sint, above, below. rewrite E1, E2, F1, F2. split; [destruct (lc c), (rc c)|destruct (lc i), (rc i)]; rb; auto; lra. }
  destruct D as [D|D]; [rewrite !ratio_0 by lra; ring|rewrite !ratio_1 by lra; ring].
Qed.

(** ** The weights *)
Lemma part_weight v i : bounded i -> uniform_part v i = (Fin (len i), DUnif v i).
Proof.
  intros (a & b & E1 & E2 & Hab). unfold uniform_part, pdf_value, log_pdf_value, len. rewrite E1, E2. f_equal. unfold nsub. cbn [nopp nadd]. unfold nlog.
  destruct (total_order_T (b + - a) 0) as [[?|?]|?]; try lra. cbn [nopp nexp]. rewrite exp_Ropp, exp_ln by lra. cbn [ndiv].
  destruct (Req_EM_T (/ (b + - a)) 0) as [E|E]; [exfalso; assert (0 < / (b + - a)) by (apply Rinv_0_lt_compat; lra); lra|]. f_equal. field. lra.
Qed.

(** The weights are proportional to the exponentials of the lengths. *)
Lemma parts_weights v A : A <> [] -> Forall bounded A -> exists z, exp z = Rsum (map (fun i => exp (len i)) A) /\
  normalised_parts (map (uniform_part v) A) = Some (map (fun i => (Fin (len i - z), DUnif v i)) A).
Proof.
  intros Hne HB. assert (E : map (uniform_part v) A = map (fun i => (Fin (len i), DUnif v i)) A).
  { apply map_ext_in. intros i Hi. rewrite Forall_forall in HB. now apply part_weight, HB. }
  rewrite E. destruct (logsumexp_weights (map fst (map (fun i => (Fin (len i), DUnif v i)) A))) as (z & E1 & E2).
  - rewrite !Forall_map. apply Forall_forall. intros. exact I.
  - rewrite !map_map. cbn [fst wexp]. destruct A as [|i A']; [congruence|]. cbn [map Rsum fold_right]. apply Rplus_lt_le_0_compat; [apply exp_pos|].
    apply Rsum_nonneg, Forall_map, Forall_forall. intros j _. left. apply exp_pos.
  - exists z. rewrite !map_map in E2. cbn [fst wexp] in E2. split; [exact E2|]. unfold normalised_parts. rewrite E1. destruct A as [|i A']; [congruence|].
    cbn [map]. rewrite map_map. cbn [fst snd]. unfold nsub. cbn [nopp nadd]. reflexivity.
Qed.
