(** * CondBayes: the circuit returned by conditioning, when conditioning does not change any weight *)
From Coq Require Import List Arith Bool Lia Reals Lra Permutation.
From Verif Require Import Num Graph GraphFacts Spec SpecFacts Circuit EvalFacts TreeProb Simplify SimplifyFacts TreeLocal NormalizeFacts
  Restrict MarginalFacts Conditional ConditionalFacts CondPass CondMain.
Import ListNotations.

Section Bayes.
Context {D : Type}.
Implicit Types g : graph D.

(** ** Trees whose sum units have children of equal value *)

Fixpoint all_sub (P : pc D -> Prop) (t : pc D) : Prop :=
  P t /\ match t with
  | PLeaf _ => True
  | PSum l => fold_right and True (map (fun wt => all_sub P (snd wt)) l)
  | PProd l => fold_right and True (map (all_sub P) l)
  end.

(** All children of a sum unit have the same value. *)
Definition even_sum (val : D -> R) (t : pc D) : Prop :=
  match t with PSum l => exists c, Forall (fun wt => semR val (snd wt) = c) l | _ => True end.
Definition even (val : D -> R) := all_sub (even_sum val).

Lemma all_sub_here P t : all_sub P t -> P t.
Proof. destruct t; simpl; tauto. Qed.

Lemma hered_all_sub P : hereditary (all_sub P).
Proof. split; intros l [_ H]; now apply fold_and_Forall in H. Qed.

Lemma even_pos val t : even val t -> normalised t -> semR val t <> 0%R -> all_sub (fun t => semR val t <> 0%R) t.
Proof.
  unfold even, normalised. induction t as [d|l IH|l IH] using pc_ind'; intros He Hn H0.
  - simpl. auto.
  - destruct He as [[c Hc] He]. destruct Hn as [[_ Hw] Hn]. apply fold_and_Forall in He, Hn. split; auto. apply fold_and_Forall.
    assert (Ec : semR val (PSum l) = c).
    { simpl. rewrite map_map in Hw. transitivity (c * Rsum (map (fun wt => wexp (fst wt)) l))%R; [|rewrite Hw; ring].
      rewrite <- Rsum_scal. apply Rsum_ext. intros wt Hin. rewrite Forall_forall in Hc. rewrite (Hc wt Hin). ring. }
    rewrite Ec in H0. rewrite Forall_forall in *. intros wt Hin. apply IH; auto. now rewrite Hc.
  - destruct He as [_ He]. simpl in Hn. apply fold_and_Forall in He, Hn. split; auto. apply fold_and_Forall. simpl in H0.
    rewrite Forall_forall in *. intros t Hin. apply IH; auto. intros E. apply H0. clear - E Hin. induction l as [|x l IH]; [destruct Hin|].
    simpl. destruct Hin as [->|Hin]; [rewrite E; ring|rewrite IH by auto; ring].
Qed.

(** Bayes' rule holds for averages of equal terms. *)
Lemma even_bayes val num t : even val t -> normalised t -> all_sub (fun t => semR val t <> 0%R) t ->
  (semR (fun d => num d / val d)%R t * semR val t = semR num t)%R.
Proof.
  unfold even, normalised. induction t as [d|l IH|l IH] using pc_ind'; intros He Hn H0.
  - simpl. destruct H0 as [H0 _]. simpl in H0. field. auto.
  - assert (He' := He). destruct He as [[c Hc] He]. destruct Hn as [[_ Hw] Hn]. destruct H0 as [H0 HP]. apply fold_and_Forall in He, Hn, HP.
    assert (Ec : semR val (PSum l) = c).
    { simpl. rewrite map_map in Hw. transitivity (c * Rsum (map (fun wt => wexp (fst wt)) l))%R; [|rewrite Hw; ring].
      rewrite <- Rsum_scal. apply Rsum_ext. intros wt Hin. rewrite Forall_forall in Hc. rewrite (Hc wt Hin). ring. }
    rewrite Ec. simpl. rewrite Rmult_comm, <- Rsum_scal. apply Rsum_ext. rewrite Forall_forall in *. intros wt Hin.
    rewrite <- (IH wt Hin) by auto. rewrite Hc by auto. ring.
  - destruct He as [_ He]. simpl in Hn. destruct H0 as [_ H0]. apply fold_and_Forall in He, Hn, H0. simpl.
    induction IH as [|t l H _ IHl]; simpl; [ring|]. inversion He; inversion Hn; inversion H0; subst. rewrite <- H, <- IHl by auto. ring.
Qed.

(** ** The pass, when no leaf becomes a sum unit *)

Variable lcond : D -> option (lres D).

Definition one_kind (k : ukind D) : ukind D :=
  match k with
  | ULeaf d => match lcond d with Some (LOne d' _) => ULeaf d' | _ => ULeaf d end
  | k => k
  end.

Lemma pass_struct order : forall g st nx g1 st1 nx1, NoDup order ->
  (forall u d l lp, In u order -> node_kind g u = Some (ULeaf d) -> lcond d <> Some (LMany l lp)) ->
  foldM (unit_conditional lcond) order (g, st, nx) = Some (g1, st1, nx1) ->
  g_edges g1 = g_edges g /\ node_ids g1 = node_ids g /\
  forall x, node_kind g1 x = if in_dec Nat.eq_dec x order then option_map one_kind (node_kind g x) else node_kind g x.
Proof.
  induction order as [|u order IH]; intros g st nx g1 st1 nx1 Hnd Hno H.
  { simpl in H. injection H as <- _ _. split; [auto|split; [auto|]]. intros x. simpl. auto. }
  inversion Hnd as [|? ? Hu Hnd']; subst. cbn [foldM] in H.
  destruct (unit_conditional lcond (g, st, nx) u) as [[[g2 st2] nx2]|] eqn:Eu; [|discriminate].
  assert (Hg2 : g_edges g2 = g_edges g /\ node_ids g2 = node_ids g /\ node_kind g2 u = option_map one_kind (node_kind g u) /\
     forall x, x <> u -> node_kind g2 x = node_kind g x).
  { unfold unit_conditional in Eu. cbn [fst snd] in Eu. destruct (node_kind g u) as [k|] eqn:Ek.
    - destruct k as [d| |].
      + unfold leaf_conditional in Eu. specialize (Hno u d). simpl. destruct (lcond d) as [[|d' lp|l lp]|] eqn:El.
        * injection Eu as <- _ _. auto.
        * injection Eu as <- _ _. split; [auto|split; [apply set_kind_ids|split]].
          -- apply set_kind_same. eapply node_kind_ids; eauto.
          -- intros x Hx. now apply set_kind_other.
        * exfalso. apply (Hno l lp); auto. now left.
        * discriminate.
      + destruct (eval_unit _ _ _ _ _ _) as [v|]; [|discriminate]. injection Eu as <- _ _. auto.
      + destruct (eval_unit _ _ _ _ _ _) as [v|]; [|discriminate]. injection Eu as <- _ _. auto.
    - destruct (eval_unit _ _ _ _ _ _) as [v|]; [|discriminate]. injection Eu as <- _ _. auto. }
  destruct Hg2 as [G1 [G2 [G3 G4]]].
  destruct (IH g2 st2 nx2 g1 st1 nx1 Hnd') as [I1 [I2 I3]]; auto.
  { intros u' d l lp Hin Hk. rewrite G4 in Hk by (intros ->; auto). apply (Hno u' d); auto. now right. }
  split; [congruence|split; [congruence|]]. intros x. rewrite I3.
  destruct (in_dec Nat.eq_dec x order) as [Hx|Hx]; destruct (in_dec Nat.eq_dec x (u :: order)) as [Hy|Hy]; try (exfalso; simpl in Hy; tauto).
  - rewrite G4; auto. intros ->. auto.
  - destruct Hy as [<-|Hy]; [auto|tauto].
  - apply G4. intros ->. apply Hy. now left.
Qed.

(** Normalising a circuit whose sum units are normalised changes nothing. *)
Lemma normalize_mean val F g r g' : tcore g r -> holds (Lmean val F) g -> normalize g = Some g' -> holds (Lmean val F) g'.
Proof.
  intros [Ht Hlf Hs Hw] HM Hn. pose proof Ht as [Hwf _].
  destruct (normalize_spec g) as [g0 [H1 [H2 [H3 [H4 H5]]]]]; [apply Hwf| |].
  { intros u Hk. destruct (HM u _ Hk) as [M1 [M2 _]]. simpl in M1, M2. unfold positive_total, weights_of.
    assert (G : exists ws, mapM (fun e : edge => e_lw e) (out_edges g u) = Some ws /\ Forall lw_ok ws /\
      Rsum (map wexp ws) = Rsum (map (fun e => lwR (e_lw e)) (out_edges g u))).
    { clear M2. induction M1 as [|e l [x Hx] M1 IH]; [exists []; auto|]. destruct IH as [ws [A [B C]]]. exists (Fin x :: ws).
      split; [|split; [constructor; simpl; auto|]]; [simpl; rewrite Hx; unfold mapM in A |- *; now rewrite A|].
      simpl. rewrite Hx. simpl. now rewrite C. }
    destruct G as [ws [A [B C]]]. exists ws. split; [auto|split; [auto|]]. rewrite C, M2. lra. }
  assert (g0 = g') by congruence. subst g0. intros u k Hk.
  assert (Hk' : node_kind g u = Some k) by (unfold node_kind in *; now rewrite <- H2). specialize (HM u k Hk').
  assert (E : map (fun e => (e_dst e, e_lw e)) (out_edges g' u) = map (fun e => (e_dst e, e_lw e)) (out_edges g u)).
  { destruct k as [d| |]; try (rewrite H5; [reflexivity|rewrite Hk'; discriminate]).
    destruct (H4 u Hk') as [c [Hc [HF HS]]]. destruct HM as [M1 [M2 _]]. simpl in M1, M2.
    assert (Ec : c = 1%R).
    { assert (E : (Rsum (map (fun e => match e_lw e with Some w => wexp w | None => 0 end) (out_edges g' u)) =
                   Rsum (map (fun e => lwR (e_lw e)) (out_edges g u)) / c)%R).
      { clear - HF. induction HF as [|e e' l l' [_ [_ [w [w' [A [B [_ C]]]]]]] HF IH]; simpl; [unfold Rdiv; ring|]. rewrite IH, A, B, C. simpl. unfold Rdiv. ring. }
      rewrite HS, M2 in E. apply (f_equal (fun z => z * c)%R) in E. unfold Rdiv in E. rewrite Rmult_assoc, Rinv_l in E by lra. lra. }
    subst c. clear - HF M1. induction HF as [|e e' l l' [_ [A0 [w [w' [A [B [C E]]]]]]] HF IH]; simpl; auto. inversion M1 as [|? ? [x Hx] M1']; subst.
    f_equal; [|now apply IH]. rewrite A0, B. f_equal. assert (w = Fin x) by congruence. subst w. rewrite Hx. f_equal.
    replace (wexp (Fin x) / 1)%R with (wexp (Fin x)) in E by field. destruct w' as [| |y|]; simpl in *; try tauto.
    - pose proof (exp_pos x). lra.
    - f_equal. now apply exp_inv. }
  assert (Hext : forall l l', map (fun e : edge => (e_dst e, e_lw e)) l' = map (fun e => (e_dst e, e_lw e)) l -> Lmean val F u k l -> Lmean val F u k l').
  { clear. intros l l' E [M1 [M2 M3]]. unfold Lmean, Lboth.
    assert (EM : forall X (f : id * option num -> X), map (fun e => f (e_dst e, e_lw e)) l' = map (fun e => f (e_dst e, e_lw e)) l).
    { intros X f. rewrite <- (map_map (fun e => (e_dst e, e_lw e)) f l), <- E, map_map. reflexivity. }
    split; [|split]; destruct k; simpl in *; auto.
    - assert (EF : Forall (fun w => exists x, w = Some (Fin x)) (map e_lw l)) by now apply Forall_map.
      pose proof (EM _ snd) as EM'. cbn [snd] in EM'. change (map (fun e => e_lw e) l' = map e_lw l) in EM'. rewrite <- EM' in EF. exact (proj1 (Forall_map _ _ _) EF).
    - rewrite <- M2. f_equal. apply (EM _ (fun p => lwR (snd p))).
    - rewrite M3. f_equal. symmetry. apply (EM _ (fun p => nmul (lwN (snd p)) (F (fst p)))).
    - rewrite M3. f_equal. symmetry. apply (EM _ (fun p => F (fst p))). }
  eapply Hext; eauto.
Qed.

Variable val : D -> num.
Variable dvars : D -> list nat.
Variable Q : D -> Prop.

(** If every unit of a normalised tree has positive probability and no leaf becomes a sum unit, the returned circuit has
    the weights of the original one and conditioned leaves. *)
Theorem conditional_keeps vq gq g r t st : tree_circuit g r t -> all_leaves (leaf_good lcond val dvars Q) t -> smooth dvars t -> decomposable dvars t ->
  normalised t -> (forall d, nonneg (gq d)) -> all_sub (fun t => semN val t <> Fin 0) t ->
  all_leaves (fun d => exists d' lp, lcond d = Some (LOne d' lp) /\ vq d' = gq d) t ->
  exists g' r' t' lp, conditional_simple lcond g st = Some (Some g', lp) /\ tree_circuit g' r' t' /\ semN vq t' = semN gq t.
Proof.
  intros H Hgood Hsm Hdec Hnorm Hnn Hpos Hone. pose proof H as [Htree Hleaf Hunf Hfin]. pose proof Htree as [Hwf [Hac [Hr _]]].
  destruct (cond_pass lcond val dvars Q g r t st H Hgood Hsm Hdec) as [order [Hbu [Hndo [Ho [HF0 [g1 [st1 [nx [r1 [F [M [Hpass HI]]]]]]]]]]]].
  destruct (pass_struct order g st (S (list_max (node_ids g))) g1 st1 nx Hndo) as [E1 [E2 E3]]; auto.
  { intros u d l lp _ Hk. destruct (tc_kinds _ _ _ _ H Hone u d Hk) as [d' [lp' [E _]]]. congruence. }
  unfold conditional_simple, conditional_finish. rewrite Hbu, Hpass. destruct HI. rename i_core into Hc1.
  pose proof (tk_tree _ _ Hc1) as Ht1. pose proof Ht1 as [Hwf1 [Hac1 [Hr1 _]]].
  assert (Er : r1 = r) by (destruct i_root as [[E|[E _]] _]; auto; exfalso; apply E; now rewrite <- E2). subst r1.
  rewrite (tree_root _ _ Ht1). destruct (bottom_up_ids g1 r Hwf1 Hac1 (tree_root _ _ Ht1)) as [order1 [Hbu1 [Hndo1 Ho1]]]. rewrite Hbu1.
  assert (Hres : forall x, In x (node_ids g1) -> exists v, st1 x = Some v /\ nexp v <> Fin 0).
  { intros x Hx. destruct (node_kind_complete g1 x Hx) as [k Hk]. assert (Hx0 : In x (node_ids g)) by now rewrite <- E2.
    assert (Hh : has_result st1 F x).
    { pose proof (i_done x k Hk (fun z => z)) as Hd. destruct k; auto. destruct Hd as [[[_ Hd]|Hd] _]; auto. exfalso. auto. }
    destruct Hh as [v [V1 V2]]. exists v. split; auto. rewrite V2, i_F by auto. unfold FN.
    destruct (tc_units _ _ _ _ H (hered_all_sub _) Hpos x Hx0) as [tx [T1 T2]]. rewrite (the_tree_unfolds _ _ _ T1). now apply all_sub_here in T2. }
  assert (Hnil : filter (result_is_ninf st1) order1 = []).
  { apply filter_nil. intros x Hx. apply Ho1 in Hx. destruct (Hres x Hx) as [v [V1 V2]]. unfold result_is_ninf. rewrite V1.
    destruct v; simpl in *; auto. tauto. }
  rewrite Hnil. cbn [foldM].
  replace (has_node g1 r) with true by (symmetry; apply existsb_exists; exists r; split; auto; apply Nat.eqb_refl). cbn [negb].
  rewrite (remove_unreachable_id g1 r Hwf1 Hac1 (tree_root _ _ Ht1)).
  set (G := FN gq g).
  assert (HM : holds (Lmean vq G) g1).
  { assert (HM0 : holds (Lmean gq G) g).
    { apply holds_mean. apply (tc_units (fun t => fin_sums t /\ normalised t) g r t); auto. apply hered_and; apply hered_all_sums. }
    intros x k Hk. assert (Ho' : out_edges g1 x = out_edges g x) by (unfold out_edges; now rewrite E1). rewrite Ho'.
    rewrite E3 in Hk. destruct (in_dec Nat.eq_dec x order) as [Hx|Hx].
    - destruct (node_kind g x) as [k0|] eqn:Ek; [|discriminate]. simpl in Hk. injection Hk as <-. specialize (HM0 x k0 Ek).
      destruct k0 as [d| |]; auto. destruct (tc_kinds _ _ _ _ H Hone x d Ek) as [d' [lp' [E Ev]]]. simpl. rewrite E.
      destruct HM0 as [_ [_ M3]]. split; [exact I|split; [exact I|]]. simpl in *. congruence.
    - exfalso. apply Hx, Ho. eapply node_kind_ids; eauto. }
  destruct (tcore_circuit g1 r Hc1) as [t1 H1].
  destruct (simplify_struct (fun _ => false) g1 r t1 H1) as [g4 [r4 [t4 [S1 [S2 [S3 [S4 S5]]]]]]]; [apply all_leaves_True; auto|].
  rewrite S1. destruct (S5 _ (Lmean_closed vq G (fun u => FN_nonneg gq g u Hnn)) HM) as [HM4 Hr4].
  destruct (normalize_tree g4 r4 (circuit_tcore _ _ _ S2)) as [g5 [N1 [N2 [N3 [N4 [N5 N6]]]]]]. rewrite N1.
  destruct (Hres r Hr1) as [lp [Hlp _]]. rewrite Hlp.
  pose proof (normalize_mean vq G g4 r4 g5 (circuit_tcore _ _ _ S2) HM4 N1) as HM5.
  destruct (tcore_circuit g5 r4 N2) as [t5 H5]. exists g5, r4, t5, lp. split; [auto|split; [auto|]].
  destruct (mean_back _ _ _ _ _ HM5 (tc_unf _ _ _ H5)) as [E _]. rewrite E.
  assert (EG : G r = semN gq t) by (unfold G, FN; now rewrite (the_tree_unfolds _ _ _ Hunf)). rewrite <- EG.
  destruct Hr4 as [->|[k [e [A [B ->]]]]]; auto. symmetry. eapply Lmean_single; eauto.
Qed.
End Bayes.
