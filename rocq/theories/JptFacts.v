(** * JptFacts: the induction loop of joint probability trees *)
From Coq Require Import List Arith Bool Lia ZArith Reals Lra Permutation.
From Verif Require Import Num Graph GraphFacts Spec Circuit EvalFacts Interval Dist DistFacts Simplify Copy Heap Layout ModeFacts Nyga Jpt.
Import ListNotations.
Local Set Bullet Behavior "Strict Subproofs".

(** ** Slices *)
Lemma nth_error_ext {A} (l l' : list A) : (forall i, nth_error l i = nth_error l' i) -> l = l'.
Proof.
  revert l'. induction l as [|x l IH]; intros [|y l'] H; auto; [specialize (H 0); discriminate|specialize (H 0); discriminate|].
  pose proof (H 0) as E. injection E as <-. f_equal. apply IH. intros i. exact (H (S i)).
Qed.

Lemma nth_error_skip {A} (l : list A) a i : nth_error (skipn a l) i = nth_error l (a + i).
Proof. revert l. induction a as [|a IH]; intros l; [reflexivity|]. destruct l; [now destruct i|]. apply IH. Qed.
Lemma nth_error_first {A} (l : list A) n i : nth_error (firstn n l) i = if i <? n then nth_error l i else None.
Proof. revert l i. induction n as [|n IH]; intros l i; [now destruct i|]. destruct l, i; auto; [now destruct (_ <? _)|]. cbn [firstn nth_error]. rewrite IH. change (S i <? S n) with (i <? n). reflexivity. Qed.

Lemma skip_skip {A} (l : list A) a b : skipn a (skipn b l) = skipn (b + a) l.
Proof. apply nth_error_ext. intros i. rewrite !nth_error_skip. f_equal. lia. Qed.

Lemma slice_nth {A} (l : list A) a b i : nth_error (slice l a b) i = if i <? b - a then nth_error l (a + i) else None.
Proof. unfold slice. now rewrite nth_error_first, nth_error_skip. Qed.

Lemma slice_length {A} (l : list A) a b : b <= length l -> length (slice l a b) = b - a.
Proof. intros H. unfold slice. rewrite firstn_length, skipn_length. lia. Qed.

Lemma slice_split {A} (l : list A) a m b : a <= m <= b -> slice l a m ++ slice l m b = slice l a b.
Proof.
  intros H. unfold slice. replace (b - a) with ((m - a) + (b - m)) by lia.
  replace (skipn m l) with (skipn (m - a) (skipn a l)) by (rewrite skip_skip; f_equal; lia).
  set (k := skipn a l). clearbody k. generalize (b - m) as q, (m - a) as p. clear. intros q p. revert k. induction p as [|p IH]; intros k; [reflexivity|].
  destruct k as [|x k]; [cbn; now rewrite firstn_nil|]. cbn. f_equal. apply IH.
Qed.

Lemma slice_all {A} (l : list A) : slice l 0 (length l) = l.
Proof. unfold slice. cbn [skipn]. rewrite Nat.sub_0_r. apply firstn_all. Qed.

(** The array is reordered within the bounds. *)
Definition reordered (idx : list nat) (s e : nat) (idx' : list nat) : Prop :=
  exists mid, idx' = firstn s idx ++ mid ++ skipn e idx /\ Permutation mid (slice idx s e).

Lemma reordered_refl idx s e : s <= e -> reordered idx s e idx.
Proof.
  intros H. exists (slice idx s e). split; [|reflexivity]. unfold slice. rewrite <- (firstn_skipn s idx) at 1. f_equal.
  rewrite <- (firstn_skipn (e - s) (skipn s idx)) at 1. f_equal. rewrite skip_skip. f_equal. lia.
Qed.

Section Reordered.
Variables (idx idx' : list nat) (s e : nat).
Hypothesis Hr : reordered idx s e idx'.
Hypothesis Hse : s <= e <= length idx.

Lemma reordered_nth i : i < s \/ e <= i -> nth_error idx' i = nth_error idx i.
Proof.
  destruct Hr as (mid & -> & P). apply Permutation_length in P. rewrite slice_length in P by lia. intros [H|H].
  - rewrite nth_error_app1 by (rewrite firstn_length; lia). rewrite nth_error_first. now destruct (Nat.ltb_spec i s); [|lia].
  - rewrite nth_error_app2 by (rewrite firstn_length; lia). rewrite firstn_length, Nat.min_l by lia. rewrite nth_error_app2 by lia. rewrite nth_error_skip. f_equal. lia.
Qed.

Lemma reordered_length : length idx' = length idx.
Proof.
  destruct Hr as (mid & -> & P). apply Permutation_length in P. rewrite slice_length in P by lia. rewrite !app_length, firstn_length, skipn_length, P. lia.
Qed.

Lemma reordered_other a b : b <= s \/ e <= a -> slice idx' a b = slice idx a b.
Proof. intros H. apply nth_error_ext. intros i. rewrite !slice_nth. destruct (Nat.ltb_spec i (b - a)); [|reflexivity]. apply reordered_nth. lia. Qed.

Lemma reordered_own : Permutation (slice idx' s e) (slice idx s e).
Proof.
  destruct Hr as (mid & E & P). replace (slice idx' s e) with mid; [exact P|]. apply Permutation_length in P. rewrite slice_length in P by lia.
  rewrite E. unfold slice. rewrite skipn_app. replace (skipn s (firstn s idx)) with (@nil nat) by (symmetry; apply skipn_all2; rewrite firstn_length; lia).
  rewrite firstn_length, Nat.min_l, Nat.sub_diag by lia. cbn [skipn app]. rewrite firstn_app. replace (e - s - length mid) with 0 by lia. cbn. rewrite app_nil_r. rewrite firstn_all2; [reflexivity|lia].
Qed.
End Reordered.

(** ** Pairwise apart *)
Definition apart (x y : item) : Prop := i_end x <= i_start y \/ i_end y <= i_start x.
Lemma apart_sym x y : apart x y -> apart y x.
Proof. unfold apart. tauto. Qed.

Fixpoint all_apart (l : list item) : Prop :=
  match l with [] => True | x :: l' => Forall (apart x) l' /\ all_apart l' end.

Lemma all_apart_app l l' : all_apart l -> all_apart l' -> (forall x y, In x l -> In y l' -> apart x y) -> all_apart (l ++ l').
Proof.
  induction l as [|x l IH]; intros H H' Hx; [exact H'|]. destruct H as [H1 H2]. cbn [app all_apart]. split.
  - apply Forall_app. split; [exact H1|]. apply Forall_forall. intros y Hy. apply Hx; [now left|exact Hy].
  - apply IH; auto. intros y z Hy Hz. apply Hx; [now right|exact Hz].
Qed.

(** ** The loop *)
(** The answers of the impurity computation respect its contract: it reorders the samples between the bounds only, and if the
    gain suffices it cuts them into two non-empty parts of at least [min_samples_leaf] samples each. *)
Definition respects_contract (best : list nat -> nat -> nat -> num * nat * list nat) (j : jpt) : Prop :=
  forall idx s e gain pos idx', s < e <= length idx -> best idx s e = (gain, pos, idx') ->
  reordered idx s e idx' /\
  (nleb gain (Fin (min_impurity_improvement j)) = false ->
   S pos < e - s /\ (min_samples_leaf j <= INR (S pos))%R /\ (min_samples_leaf j <= INR (e - s - S pos))%R).

Definition depth_ok (j : jpt) (d : nat) : Prop := nleb (Fin (INR d)) (max_depth j) = true.
(** The depth limit is a whole number or infinite. *)
Definition depth_limit (j : jpt) : Prop := max_depth j = PInf \/ exists d, max_depth j = Fin (INR d).

Section Loop.
Variable best : list nat -> nat -> nat -> num * nat * list nat.
Variable create : list row -> option (pc dist).
Variable j : jpt.
Variable data : list row.
Let N := length data.
Hypothesis Hbest : respects_contract best j.
Hypothesis Hcreate : forall rows, rows <> [] -> incl rows data -> length rows <= N -> exists u, create rows = Some u.
Hypothesis HN : N <> 0.
Hypothesis Hdepth : depth_limit j.

Record leaf_good (l : leaf) : Prop := {
  lg_weight : l_weight l = nlog (Fin (INR (length (l_samples l)) / INR N));
  lg_unit : exists rows, mapM (nth_error data) (l_samples l) = Some rows /\ create rows = Some (l_unit l);
  lg_some : l_samples l <> [];
  lg_enough : (min_samples_leaf j <= INR (length (l_samples l)))%R;
  lg_depth : depth_ok j (l_depth l)
}.

Record item_good (it : item) : Prop := {
  ig_data : i_data it = data;
  ig_bounds : i_start it < i_end it <= N;
  ig_enough : (min_samples_leaf j <= INR (i_end it - i_start it))%R;
  ig_depth : depth_ok j (i_depth it)
}.

Definition halves (ds : list nat) : R := Rsum (map (fun d => (/ 2) ^ d)%R ds).

Record inv (queue : list item) (idx : list nat) (leaves : list leaf) : Prop := {
  v_length : length idx = N;
  v_items : Forall item_good queue;
  v_apart : all_apart queue;
  v_samples : Permutation (concat (map l_samples leaves) ++ concat (map (fun it => slice idx (i_start it) (i_end it)) queue)) (seq 0 N);
  v_leaves : Forall leaf_good leaves;
  v_kraft : (halves (map l_depth leaves) + halves (map i_depth queue) = 1)%R
}.

Lemma list_sum_cons x l : list_sum (x :: l) = x + list_sum l.
Proof. reflexivity. Qed.

Lemma fetch (samples : list nat) : Forall (fun i => i < N) samples -> exists rows, mapM (nth_error data) samples = Some rows /\ incl rows data /\ length rows = length samples.
Proof.
  unfold mapM. induction 1 as [|i l Hi _ (rows & E & I & L)]; [exists []; repeat split; intros x []|].
  destruct (nth_error data i) as [r|] eqn:Er; [|apply nth_error_None in Er; unfold N in Hi; lia]. rewrite E. exists (r :: rows). split; [reflexivity|]. split; [|cbn; lia].
  intros x [<-|Hx]; [eapply nth_error_In; eauto|auto].
Qed.

Lemma step it queue idx leaves : inv (it :: queue) idx leaves ->
  exists queue' idx' leaves', c45 best create j it queue idx leaves = Some (queue', idx', leaves') /\ inv queue' idx' leaves' /\
  list_sum (map (fun it => 2 * (i_end it - i_start it) - 1) queue') < list_sum (map (fun it => 2 * (i_end it - i_start it) - 1) (it :: queue)).
Proof.
  intros [L I A Sm G K]. pose proof (Forall_inv I) as [D B E Dp]. pose proof (Forall_inv_tail I) as I'. destruct A as [A1 A2].
  destruct it as [dat s e dep]. cbn [i_data i_start i_end i_depth] in *. subst dat. unfold c45. cbn [i_data i_start i_end i_depth].
  set (answer := if _ || _ then (NInf, 0, idx) else best idx s e).
  assert (C : reordered idx s e (snd answer) /\ (nleb (fst (fst answer)) (Fin (min_impurity_improvement j)) = false ->
     (S (snd (fst answer)) < e - s /\ (min_samples_leaf j <= INR (S (snd (fst answer))))%R /\ (min_samples_leaf j <= INR (e - s - S (snd (fst answer))))%R) /\ ngeb (Fin (INR dep)) (max_depth j) = false)).
  { unfold answer. destruct (ngeb (Fin (INR dep)) (max_depth j)) eqn:X; cbn [orb].
    - split; [apply reordered_refl; lia|cbn; discriminate].
    - destruct (Rltb (INR (e - s)) (2 * min_samples_leaf j)).
      + split; [apply reordered_refl; lia|cbn; discriminate].
      + destruct (best idx s e) as [[gain pos] idx'] eqn:Eb. assert (Q : s < e <= length idx) by lia. destruct (Hbest idx s e gain pos idx' Q Eb) as [H1 H2]. cbn [fst snd]. split; [exact H1|]. auto. }
  destruct answer as [[gain pos] idx']. cbn [fst snd] in C. destruct C as [Hr Hs].
  assert (Hse : s <= e <= length idx) by lia.
  assert (Rest : map (fun it => slice idx' (i_start it) (i_end it)) queue = map (fun it => slice idx (i_start it) (i_end it)) queue).
  { apply map_ext_in. intros it Hit. rewrite Forall_forall in A1. specialize (A1 it Hit). apply (reordered_other idx idx' s e); auto. unfold apart in A1. cbn in A1. lia. }
  assert (Perm : Permutation (concat (map l_samples leaves) ++ slice idx' s e ++ concat (map (fun it => slice idx' (i_start it) (i_end it)) queue)) (seq 0 N)).
  { rewrite Rest. rewrite <- Sm. cbn [map concat i_start i_end]. apply Permutation_app_head, Permutation_app_tail. now apply (reordered_own idx idx' s e). }
  assert (Ll : length (slice idx' s e) = e - s) by (apply slice_length; rewrite (reordered_length idx idx' s e); auto; lia).
  destruct (nleb gain (Fin (min_impurity_improvement j))) eqn:Eg.
  - destruct (fetch (slice idx' s e)) as (rows & Er & Hin & Lr).
    { apply Forall_forall. intros i Hi. assert (In i (seq 0 N)). { eapply Permutation_in; [exact Perm|]. apply in_or_app. right. apply in_or_app. now left. } apply in_seq in H. lia. }
    rewrite Er. destruct (Hcreate rows) as (u & Eu); [destruct rows; [cbn in Lr; lia|discriminate]|exact Hin|lia|]. rewrite Eu.
    destruct (Nat.eqb_spec (length data) 0); [contradiction|]. eexists _, _, _. split; [reflexivity|]. split.
    + constructor.
      * now rewrite (reordered_length idx idx' s e).
      * exact I'.
      * exact A2.
      * rewrite map_app, concat_app. cbn [map concat l_samples]. rewrite app_nil_r, <- app_assoc. exact Perm.
      * apply Forall_app. split; [exact G|]. constructor; [|constructor]. constructor; cbn [l_weight l_unit l_samples l_depth].
        -- now rewrite Ll.
        -- eauto.
        -- intros X. rewrite X in Ll. cbn in Ll. lia.
        -- now rewrite Ll.
        -- exact Dp.
      * rewrite map_app. cbn [map l_depth]. unfold halves in *. cbn [map i_depth Rsum fold_right] in K. rewrite map_app. rewrite Rsum_app. cbn [map Rsum fold_right]. unfold Rsum in *. lra.
    + cbn [map]. rewrite list_sum_cons. cbn [i_start i_end]. lia.
  - destruct (Hs eq_refl) as ((P1 & P2 & P3) & P4). replace (s + pos + 1) with (s + S pos) by lia. set (k := S pos) in *. eexists _, _, _. split; [reflexivity|].
    assert (Dn : depth_ok j (S dep)).
    { unfold depth_ok. unfold ngeb in P4. destruct Hdepth as [->|(d & E')]; [reflexivity|]. rewrite E' in *. cbn [nleb] in *. revert P4. rb; auto; try discriminate. intros _. exfalso.
      assert (dep < d) by (apply INR_lt; lra). assert (INR (S dep) <= INR d)%R by (apply le_INR; lia). lra. }
    split.
    + constructor.
      * now rewrite (reordered_length idx idx' s e).
      * apply Forall_app. split; [exact I'|]. constructor; [|constructor; [|constructor]]; constructor; cbn [i_data i_start i_end i_depth]; auto; try lia.
        -- now replace (s + k - s) with k by lia.
        -- now replace (e - (s + k)) with (e - s - k) by lia.
      * apply all_apart_app; [exact A2| |].
        -- cbn. repeat split; repeat constructor.
        -- rewrite Forall_forall in A1. intros x y Hx [<-|[<-|[]]]; specialize (A1 x Hx); unfold apart in *; cbn in *; lia.
      * rewrite map_app, concat_app. cbn [map concat i_start i_end]. rewrite app_nil_r. rewrite slice_split by lia. rewrite <- Perm.
        apply Permutation_app_head. apply Permutation_app_comm.
      * exact G.
      * unfold halves in *. rewrite map_app, map_app, Rsum_app. cbn [map i_depth Rsum fold_right] in *. unfold Rsum in *. cbn [pow]. lra.
    + rewrite map_app, list_sum_app. cbn [map]. rewrite !list_sum_cons. cbn [i_start i_end list_sum fold_right]. lia.
Qed.

Lemma loop fuel : forall queue idx leaves, inv queue idx leaves -> list_sum (map (fun it => 2 * (i_end it - i_start it) - 1) queue) <= fuel ->
  exists leaves' idx', fit_loop best create j fuel queue idx leaves = ([], Some leaves') /\ inv [] idx' leaves' /\
  forall fuel', fuel <= fuel' -> fit_loop best create j fuel' queue idx leaves = ([], Some leaves').
Proof.
  induction fuel as [|fuel IH]; intros [|it queue] idx leaves V F.
  - exists leaves, idx. split; [reflexivity|]. split; [exact V|]. intros [|f'] _; reflexivity.
  - exfalso. pose proof (ig_bounds _ (Forall_inv (v_items _ _ _ V))). cbn [map] in F. rewrite list_sum_cons in F. lia.
  - exists leaves, idx. split; [reflexivity|]. split; [exact V|]. intros [|f'] _; reflexivity.
  - destruct (step it queue idx leaves V) as (q & ix & ls & E & V' & D). cbn [fit_loop]. rewrite E.
    destruct (IH q ix ls V') as (leaves' & idx' & E1 & E2 & E3); [lia|]. exists leaves', idx'. split; [exact E1|]. split; [exact E2|].
    intros [|f'] Hf; [lia|]. cbn [fit_loop]. rewrite E. apply E3. lia.
Qed.
End Loop.
