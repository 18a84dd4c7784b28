(** * Properties C42 - C44: fitting joint probability trees *)
From Coq Require Import List Arith Bool Lia ZArith Reals Lra Permutation.
From Verif Require Import Num Graph GraphFacts Spec Circuit EvalFacts Interval Dist DistFacts Simplify Copy Heap Layout ModeFacts Nyga Jpt JptFacts.
Import ListNotations.
Local Set Bullet Behavior "Strict Subproofs".
Local Open Scope R_scope.

(** ** C42 *)
(** [n] of [N] samples are enough for a leaf: a minimum below one is a fraction of all samples. *)
Definition enough (j : jpt) (N n : nat) : Prop :=
  (1 <= raw_min_samples_leaf j -> raw_min_samples_leaf j <= INR n) /\ (raw_min_samples_leaf j < 1 -> raw_min_samples_leaf j * INR N <= INR n).

Lemma ceil_le x n : ceil x <= INR n <-> x <= INR n.
Proof.
  unfold ceil. destruct (base_Int_part (- x)) as [A B]. split; intros H; [lra|]. rewrite INR_IZR_INZ, <- opp_IZR in *. apply IZR_le.
  apply Z.opp_le_mono. rewrite Z.opp_involutive. apply Z.lt_succ_r. apply lt_IZR. rewrite succ_IZR, opp_IZR. lra.
Qed.

Lemma enough_spec j N n : min_samples_leaf (with_total j N) <= INR n <-> enough j N n.
Proof.
  unfold min_samples_leaf, enough. cbn [with_total raw_min_samples_leaf total_samples]. rb.
  - rewrite ceil_le. split; [intros; split; [lra|auto]|tauto].
  - split; [intros; split; [auto|lra]|intros [A _]; apply A; lra].
Qed.

Lemma enough_all j (data : list row) : data <> [] -> raw_min_samples_leaf j <= INR (length data) -> min_samples_leaf (with_total j (length data)) <= INR (length data).
Proof.
  intros Hne H. apply enough_spec. split; [auto|]. intros H1. pose proof (pos_INR (length data)). nra.
Qed.

(** The leaves partition the samples of [data]. *)
Record tree_of (create : list row -> option (pc dist)) (j : jpt) (data : list row) (leaves : list leaf) : Prop := {
  t_samples : Permutation (concat (map l_samples leaves)) (seq 0 (length data));
  t_weights : forall l, In l leaves -> l_weight l = nlog (Fin (INR (length (l_samples l)) / INR (length data)));
  t_total : Rsum (map (fun l => wexp (l_weight l)) leaves) = 1;
  t_enough : forall l, In l leaves -> enough j (length data) (length (l_samples l));
  t_some : forall l, In l leaves -> l_samples l <> [];
  t_depth : forall l, In l leaves -> nleb (Fin (INR (l_depth l))) (max_depth j) = true;
  t_units : forall l, In l leaves -> exists rows, mapM (nth_error data) (l_samples l) = Some rows /\ create rows = Some (l_unit l)
}.

(** Fitting a JPT as the only one, with the number of samples known. *)
Definition fits best create (j : jpt) (data : list row) (leaves : list leaf) : Prop :=
  exists fuel0, forall fuel, (fuel0 <= fuel)%nat -> fit best create j fuel data [] = ([], Some leaves).

Definition leaf_fit_succeeds (create : list row -> option (pc dist)) (data : list row) : Prop :=
  forall rows, rows <> [] -> incl rows data -> (length rows <= length data)%nat -> exists u, create rows = Some u.

Definition C42_full : Prop := forall best create j data, data <> [] -> leaf_fit_succeeds create data -> respects_contract best (with_total j (length data)) ->
  exists leaves, fits best create j data leaves /\ tree_of create (with_total j (length data)) data leaves.

Lemma kraft_and_tree best create j data : data <> [] -> leaf_fit_succeeds create data -> respects_contract best (with_total j (length data)) ->
  depth_limit j -> depth_ok j 0 -> min_samples_leaf (with_total j (length data)) <= INR (length data) ->
  exists leaves, (forall fuel, (2 * length data <= fuel)%nat -> fit best create j fuel data [] = ([], Some leaves)) /\
  tree_of create (with_total j (length data)) data leaves /\ halves (map l_depth leaves) = 1.
Proof.
  intros Hne Hc Hb Hd H0 Hm. assert (HN : length data <> 0%nat) by (destruct data; [contradiction|discriminate]).
  assert (Vi : inv create (with_total j (length data)) data [mkItem data 0 (length data) 0] (seq 0 (length data)) []).
  { constructor.
    - apply seq_length.
    - constructor; [|constructor]. constructor; cbn [i_data i_start i_end i_depth]; auto; [lia|]. now rewrite Nat.sub_0_r.
    - cbn. auto.
    - cbn [map concat app i_start i_end]. rewrite app_nil_r. replace (slice (seq 0 (length data)) 0 (length data)) with (seq 0 (length data)); [reflexivity|].
      rewrite <- (slice_all (seq 0 (length data))) at 1. now rewrite seq_length.
    - constructor.
    - unfold halves. cbn. lra. }
  destruct (loop best create (with_total j (length data)) data Hb Hc HN Hd (2 * length data - 1) _ _ _ Vi) as (leaves & idx & E & V & E').
  - cbn [map]. rewrite list_sum_cons. cbn [i_start i_end list_sum fold_right]. lia.
  - exists leaves. split; [|split].
    + intros fuel Hf. unfold fit. cbn [app]. apply E'. lia.
    + destruct V as [_ _ _ P G _]. cbn [map concat] in P. rewrite app_nil_r in P. rewrite Forall_forall in G. constructor; auto.
      * intros l Hl. apply (G l Hl).
      * assert (X : Rsum (map (fun l => wexp (l_weight l)) leaves) = Rsum (map (fun l => INR (length (l_samples l)) / INR (length data)) leaves)).
        { apply Rsum_ext. intros l Hl. rewrite (lg_weight _ _ _ _ (G l Hl)). apply wexp_nlog. apply Rmult_le_pos; [apply pos_INR|]. left. apply Rinv_0_lt_compat. apply lt_0_INR. lia. }
        rewrite X. apply Permutation_length in P. rewrite seq_length in P.
        assert (Y : forall ls : list leaf, Rsum (map (fun l => INR (length (l_samples l)) / INR (length data)) ls) = INR (length (concat (map l_samples ls))) / INR (length data)).
        { clear. induction ls as [|l ls IH]; [cbn; lra|]. cbn [map concat]. rewrite app_length, plus_INR. change (Rsum (?a :: ?b)) with (a + Rsum b). rewrite IH. lra. }
        rewrite Y, P. field. apply not_0_INR. exact HN.
      * intros l Hl. apply (enough_spec j). apply (G l Hl).
      * intros l Hl. apply (G l Hl).
      * intros l Hl. apply (G l Hl).
      * intros l Hl. apply (G l Hl).
    + destruct V as [_ _ _ _ _ K]. unfold halves in *. cbn [map Rsum fold_right] in K. lra.
Qed.

(** If there are at least [min_samples_leaf] samples and the depth limit is a natural number or infinite, fitting ends after
    at most twice as many steps as there are samples, with a partition of the samples. *)
Theorem C42_jpt_partition_partial best create j data : data <> [] -> leaf_fit_succeeds create data -> respects_contract best (with_total j (length data)) ->
  depth_limit j -> raw_min_samples_leaf j <= INR (length data) ->
  exists leaves, (forall fuel, (2 * length data <= fuel)%nat -> fit best create j fuel data [] = ([], Some leaves)) /\
  tree_of create (with_total j (length data)) data leaves.
Proof.
  intros Hne Hc Hb Hd Hm. destruct (kraft_and_tree best create j data Hne Hc Hb Hd) as (leaves & A & B & _); eauto using enough_all.
  destruct Hd as [E|(d & E)]; unfold depth_ok; rewrite E; [reflexivity|]. cbn [nleb]. rb; auto. exfalso. cbn in *. pose proof (pos_INR d). lra.
Qed.

(** Fewer samples than [min_samples_leaf] give one leaf that is too small. *)
Theorem C42_refuted : ~ C42_full.
Proof.
  intros F. set (j := init [] None None 2 0 PInf PInf None).
  destruct (F (fun ix _ _ => (NInf, 0%nat, ix)) (fun _ => Some (PProd [])) j [[]]) as (leaves & (f0 & E) & T).
  - discriminate.
  - intros rows _ _ _. eauto.
  - intros idx s e gain pos idx' H X. injection X as <- <- <-. split; [apply reordered_refl; lia|]. discriminate.
  - specialize (E (S f0) (Nat.le_succ_diag_r _)). unfold fit in E. cbn [app length seq fit_loop] in E. unfold c45 in E. cbn [i_data i_start i_end i_depth] in E.
    destruct (ngeb _ _ || Rltb _ _); cbn [nleb] in E.
    + cbn [slice Nat.sub skipn firstn mapM nth_error length Nat.eqb] in E. destruct f0; cbn [fit_loop] in E; injection E as <-.
      * pose proof (t_enough _ _ _ _ T _ (or_introl eq_refl)) as X. destruct X as [X _]. cbn in X. lra.
      * pose proof (t_enough _ _ _ _ T _ (or_introl eq_refl)) as X. destruct X as [X _]. cbn in X. lra.
    + cbn [slice Nat.sub skipn firstn mapM nth_error length Nat.eqb] in E. destruct f0; cbn [fit_loop] in E; injection E as <-.
      * pose proof (t_enough _ _ _ _ T _ (or_introl eq_refl)) as X. destruct X as [X _]. cbn in X. lra.
      * pose proof (t_enough _ _ _ _ T _ (or_introl eq_refl)) as X. destruct X as [X _]. cbn in X. lra.
Qed.

(** ** C43 *)
Definition C43_full : Prop := forall best create j data leaves, data <> [] -> leaf_fit_succeeds create data -> respects_contract best (with_total j (length data)) ->
  fits best create j data leaves -> nleb (Fin 1) (max_leaves j) = true -> nleb (Fin (INR (length leaves))) (max_leaves j) = true.

(** [max_leaves] is never read.  The number of leaves is bounded by the samples per leaf and by the depth limit only, so the
    limit is respected if it is not below one of these bounds. *)
Theorem C43_max_leaves_partial best create j data leaves : data <> [] -> leaf_fit_succeeds create data -> respects_contract best (with_total j (length data)) ->
  depth_limit j -> raw_min_samples_leaf j <= INR (length data) -> fits best create j data leaves ->
  (length leaves <= length data)%nat /\
  (1 <= raw_min_samples_leaf j -> INR (length leaves) * raw_min_samples_leaf j <= INR (length data)) /\
  (raw_min_samples_leaf j < 1 -> INR (length leaves) * (raw_min_samples_leaf j * INR (length data)) <= INR (length data)) /\
  forall d, max_depth j = Fin (INR d) -> (length leaves <= 2 ^ d)%nat.
Proof.
  intros Hne Hc Hb Hd Hm (f0 & Hf). assert (H0 : depth_ok j 0).
  { destruct Hd as [E|(d & E)]; unfold depth_ok; rewrite E; [reflexivity|]. cbn [nleb]. rb; auto. exfalso. cbn in *. pose proof (pos_INR d). lra. }
  destruct (kraft_and_tree best create j data Hne Hc Hb Hd H0 (enough_all j data Hne Hm)) as (ls & A & B & K).
  assert (ls = leaves). { specialize (A (f0 + 2 * length data)%nat ltac:(lia)). rewrite Hf in A by lia. now injection A. } subst ls.
  assert (P := Permutation_length (t_samples _ _ _ _ B)). rewrite seq_length in P.
  split; [|split; [|split]].
  - rewrite <- P. assert (Hs := t_some _ _ _ _ B). clear -Hs. induction leaves as [|l ls IH]; [cbn; lia|]. cbn [map concat length]. rewrite app_length.
    assert (l_samples l <> []) by (apply Hs; now left). specialize (IH (fun x Hx => Hs x (or_intror Hx))). destruct (l_samples l); [contradiction|]. cbn [length]. lia.
  - intros H1. assert (Hs := fun l Hl => proj1 (t_enough _ _ _ _ B l Hl) H1). cbn [with_total raw_min_samples_leaf] in Hs. revert Hs. generalize (raw_min_samples_leaf j) as m. rewrite <- P. clear. intros m Hs.
    induction leaves as [|l ls IH]; [cbn; lra|]. cbn [map concat length]. rewrite app_length, plus_INR, S_INR. specialize (IH (fun x Hx => Hs x (or_intror Hx))). specialize (Hs l (or_introl eq_refl)). lra.
  - intros H1. assert (Hs := fun l Hl => proj2 (t_enough _ _ _ _ B l Hl) H1). cbn [with_total raw_min_samples_leaf] in Hs. revert Hs. generalize (raw_min_samples_leaf j * INR (length data)) as m. rewrite <- P. clear. intros m Hs.
    induction leaves as [|l ls IH]; [cbn; lra|]. cbn [map concat length]. rewrite app_length, plus_INR, S_INR. specialize (IH (fun x Hx => Hs x (or_intror Hx))). specialize (Hs l (or_introl eq_refl)). lra.
  - intros d Ed. assert (Hs := t_depth _ _ _ _ B). cbn [with_total max_depth] in Hs. rewrite Ed in Hs. apply INR_le. rewrite pow_INR. change (INR 2) with 2.
    assert (G : INR (length leaves) * (/ 2) ^ d <= halves (map l_depth leaves)).
    { clear -Hs. unfold halves. induction leaves as [|l ls IH]; [cbn; lra|]. cbn [map length]. change (Rsum (?a :: ?b)) with (a + Rsum b). rewrite S_INR.
      specialize (IH (fun x Hx => Hs x (or_intror Hx))). specialize (Hs l (or_introl eq_refl)). cbn [nleb] in Hs. revert Hs. rb; [|discriminate]. intros _.
      assert (l_depth l <= d)%nat by now apply INR_le. assert ((/ 2) ^ d <= (/ 2) ^ l_depth l). { rewrite !pow_inv. apply Rinv_le_contravar; [apply pow_lt; lra|]. apply Rle_pow; [lra|assumption]. } lra. }
    rewrite K in G. rewrite pow_inv in G. apply Rmult_le_reg_r with (/ 2 ^ d); [apply Rinv_0_lt_compat, pow_lt; lra|]. rewrite Rinv_r; [exact G|]. apply pow_nonzero. lra.
Qed.

(** An impurity that cuts off the first sample. *)
Definition cut_first : list nat -> nat -> nat -> num * nat * list nat := fun ix s e => if (e - s =? 2)%nat then (Fin 1, 0%nat, ix) else (NInf, 0%nat, ix).

Lemma cut_first_contract j : min_impurity_improvement j = 0 -> raw_min_samples_leaf j = 1 -> respects_contract cut_first j.
Proof.
  intros E0 E idx s e gain pos idx' H X. unfold cut_first in X. destruct (Nat.eqb_spec (e - s) 2) as [Q|Q]; injection X as <- <- <-; (split; [apply reordered_refl; lia|]).
  - intros _. rewrite Q. unfold min_samples_leaf. rewrite E. rb; [lra|]. cbn. repeat split; try lia; lra.
  - discriminate.
Qed.

Definition two_leaves : list leaf := [mkLeaf (nlog (Fin (INR 1 / INR 2))) (PProd []) [0%nat] 1; mkLeaf (nlog (Fin (INR 1 / INR 2))) (PProd []) [1%nat] 1].

Lemma cut_first_fit j : min_impurity_improvement j = 0 -> raw_min_samples_leaf j = 1 -> max_depth j = PInf -> forall fuel,
  fit cut_first (fun _ => Some (PProd [])) j (3 + fuel) [[]; []] [] =
  ([], Some two_leaves).
Proof.
  intros E0 E Ed fuel. unfold fit. cbn [app length seq Nat.add].
  assert (M : min_samples_leaf (with_total j 2) = 1) by (unfold min_samples_leaf; cbn [with_total raw_min_samples_leaf]; rewrite E; rb; auto; lra).
  assert (R2 : Rltb (INR 2) (2 * 1) = false) by (rb; auto; cbn in *; lra). assert (R3 : Rltb (INR 1) (2 * 1) = true) by (rb; auto; cbn in *; lra).
  assert (R4 : Rleb 1 0 = false) by (rb; auto; lra).
  assert (A : forall q, c45 cut_first (fun _ => Some (PProd [])) (with_total j 2) (mkItem [[]; []] 0 2 0) q [0; 1]%nat [] =
    Some (q ++ [mkItem [[]; []] 0 1 1; mkItem [[]; []] 1 2 1], [0; 1]%nat, [])).
  { intros q. unfold c45. cbn [i_data i_start i_end i_depth with_total max_depth min_impurity_improvement Nat.sub]. rewrite M, Ed, E0, R2. cbn [ngeb nleb orb cut_first Nat.sub Nat.eqb]. now rewrite R4. }
  assert (B : forall q ls i, (i < 2)%nat -> c45 cut_first (fun _ => Some (PProd [])) (with_total j 2) (mkItem [[]; []] i (S i) 1) q [0; 1]%nat ls =
    Some (q, [0; 1]%nat, ls ++ [mkLeaf (nlog (Fin (INR 1 / INR 2))) (PProd []) [i] 1])).
  { intros q ls i Hi. unfold c45. cbn [i_data i_start i_end i_depth with_total max_depth min_impurity_improvement]. replace (S i - i)%nat with 1%nat by lia. rewrite M, R3, orb_true_r. cbn [nleb].
    destruct i as [|[|i]]; [reflexivity|reflexivity|lia]. }
  cbn [fit_loop]. rewrite A. cbn [app fit_loop]. rewrite B by lia. cbn [app fit_loop]. rewrite B by lia. destruct fuel; reflexivity.
Qed.

(** Two samples that the impurity separates become two leaves although only one is allowed. *)
Theorem C43_refuted : ~ C43_full.
Proof.
  intros F. set (j := init [] None None 1 0 (Fin 1) PInf None).
  assert (Hfit : fits cut_first (fun _ => Some (PProd [])) j [[]; []] two_leaves).
  { exists 3%nat. intros fuel Hf. replace fuel with (3 + (fuel - 3))%nat by lia. now apply cut_first_fit. }
  assert (X := F cut_first (fun _ => Some (PProd [])) j [[]; []] two_leaves ltac:(discriminate) (fun _ _ _ _ => ex_intro _ _ eq_refl) (cut_first_contract (with_total j 2) eq_refl eq_refl) Hfit).
  cbn [j init set_targets_and_features max_leaves nleb length two_leaves] in X. revert X. rb; cbn [INR] in *; lra.
Qed.

(** The hypotheses of C42 and C43 are met by the two samples above. *)
Example C42_case : let j := init [] None None 1 0 PInf (Fin (INR 3)) None in
  leaf_fit_succeeds (fun _ => Some (PProd [])) [[]; []] /\ respects_contract cut_first (with_total j 2) /\ depth_limit j /\ raw_min_samples_leaf j <= INR 2.
Proof.
  split; [|split; [|split]].
  - intros rows _ _ _. eauto.
  - now apply cut_first_contract.
  - right. exists 3%nat. reflexivity.
  - cbn. lra.
Qed.

(** ** C44 *)
(** One call of fit: the impurity, the leaf construction, the JPT, the step at which it is interrupted at the latest, the data. *)
Record call := mkCall { c_best : list nat -> nat -> nat -> num * nat * list nat; c_create : list row -> option (pc dist); c_jpt : jpt; c_fuel : nat; c_data : list row }.

Definition run (c : call) (shared : list item) : list item * option (list leaf) := fit (c_best c) (c_create c) (c_jpt c) (c_fuel c) (c_data c) shared.
(** The shared queue after a sequence of calls, the outcome of each ignored. *)
Definition after (history : list call) : list item := fold_left (fun q c => fst (run c q)) history [].

(** The outcome of a fit does not depend on the calls before it. *)
Definition C44_full : Prop := forall history c, snd (run c (after history)) = snd (run c []).

Lemma finished_empty best create j fuel : forall queue idx leaves leaves', snd (fit_loop best create j fuel queue idx leaves) = Some leaves' -> fst (fit_loop best create j fuel queue idx leaves) = [].
Proof.
  induction fuel as [|fuel IH]; intros [|it queue] idx leaves leaves' H; try reflexivity; [discriminate|]. cbn [fit_loop] in *. destruct (c45 _ _ _ _ _ _ _) as [[[q ix] ls]|]; [eauto|discriminate].
Qed.

(** If every earlier call finished, whatever JPTs and data they were for, a fit runs as in a fresh process, also when it is
    interrupted itself. *)
Theorem C44_isolated_partial history c : (forall before d rest, history = before ++ d :: rest -> exists leaves, snd (run d (after before)) = Some leaves) ->
  after history = [] /\ run c (after history) = run c [].
Proof.
  intros H. assert (E : after history = []); [|now rewrite E].
  destruct history as [|d history] using rev_ind; [reflexivity|]. unfold after. rewrite fold_left_app. cbn [fold_left].
  destruct (H history d []) as (leaves & E); [reflexivity|]. unfold run, fit in *. eapply finished_empty. exact E.
Qed.

(** A fit of two samples that is interrupted after the first step leaves two steps in the queue; a later fit of one sample
    takes them over and gets three leaves instead of one. *)
Theorem C44_refuted : ~ C44_full.
Proof.
  intros F. set (j := init [] None None 1 0 PInf PInf None).
  set (c := mkCall cut_first (fun rows => Some (PProd [])) j 1 [[]; []]).
  set (d := mkCall cut_first (fun rows => Some (PProd [])) j 5 [[]]).
  specialize (F [c] d).
  assert (R2 : Rltb (INR 2) (2 * 1) = false) by (rb; auto; cbn in *; lra). assert (R3 : Rltb (INR 1) (2 * 1) = true) by (rb; auto; cbn in *; lra).
  assert (R4 : Rleb 1 0 = false) by (rb; auto; lra).
  assert (M : forall n, min_samples_leaf (with_total j n) = 1) by (intros n; unfold min_samples_leaf; cbn [with_total raw_min_samples_leaf j init set_targets_and_features]; rb; auto; lra).
  assert (A : after [c] = [mkItem [[]; []] 0 1 1; mkItem [[]; []] 1 2 1]).
  { unfold after, run, fit. cbn [fold_left c c_best c_create c_jpt c_fuel c_data app length seq fit_loop].
    unfold c45. cbn [i_data i_start i_end i_depth Nat.sub]. rewrite M. cbn [with_total max_depth min_impurity_improvement j init set_targets_and_features]. rewrite R2. cbn [ngeb nleb orb cut_first Nat.sub Nat.eqb]. rewrite R4. reflexivity. }
  rewrite A in F.
  assert (B : forall dat i dep q ls, (match mapM (nth_error dat) (slice [0]%nat i (S i)) with Some _ => True | None => False end) -> length dat <> 0%nat ->
    exists l, c45 cut_first (fun _ => Some (PProd [])) (with_total j 1) (mkItem dat i (S i) dep) q [0]%nat ls = Some (q, [0]%nat, ls ++ [l])).
  { intros dat i dep q ls H1 H2. unfold c45. cbn [i_data i_start i_end i_depth]. replace (S i - i)%nat with 1%nat by lia. rewrite M, R3, orb_true_r. cbn [nleb].
    destruct (mapM _ _); [|contradiction]. destruct (Nat.eqb_spec (length dat) 0); [contradiction|]. eexists. reflexivity. }
  unfold run, fit in F. cbn [d c_best c_create c_jpt c_fuel c_data app length seq fit_loop] in F.
  destruct (B [[]; []] 0%nat 1%nat [mkItem [[]; []] 1 2 1; mkItem [[]] 0 1 0] []) as (l1 & E1); [exact I|discriminate|].
  destruct (B [[]; []] 1%nat 1%nat [mkItem [[]] 0 1 0] [l1]) as (l2 & E2); [exact I|discriminate|].
  destruct (B [[]] 0%nat 0%nat [] [l1; l2]) as (l3 & E3); [exact I|discriminate|].
  destruct (B [[]] 0%nat 0%nat [] []) as (l4 & E4); [exact I|discriminate|].
  rewrite E1, E4 in F. cbn [app fit_loop] in F. rewrite E2 in F. cbn [app fit_loop] in F. rewrite E3 in F. cbn [app fit_loop snd] in F. discriminate F.
Qed.

(** Two finished fits of different JPTs before another one. *)
Example C44_case : let j := init [] None None 1 0 PInf PInf None in let c := mkCall cut_first (fun rows => Some (PProd [])) j 3 [[]; []] in
  forall before d rest, [c; c] = before ++ d :: rest -> exists leaves, snd (run d (after before)) = Some leaves.
Proof.
  intros j c. assert (E : run c [] = ([], Some two_leaves)) by exact (cut_first_fit j eq_refl eq_refl eq_refl 0).
  intros before d rest H. clearbody c. destruct before as [|x [|y before]].
  - injection H as -> _. exists two_leaves. unfold after. cbn [fold_left]. now rewrite E.
  - injection H as -> -> _. exists two_leaves. unfold after. cbn [fold_left]. rewrite E. cbn [fst]. now rewrite E.
  - injection H as -> -> H. destruct before; discriminate H.
Qed.

Print Assumptions C42_jpt_partition_partial.
Print Assumptions C42_refuted.
Print Assumptions C43_max_leaves_partial.
Print Assumptions C43_refuted.
Print Assumptions C44_isolated_partial.
Print Assumptions C44_refuted.
