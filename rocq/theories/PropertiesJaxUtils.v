(** * Properties C52, C53, C63 and C86: index helpers *)
From Coq Require Import List Arith Bool Lia ZArith Permutation Sorted.
From Verif Require Import JaxUtils.
Import ListNotations.
Local Set Bullet Behavior "Strict Subproofs".
Local Open Scope nat_scope.

(** ** C52 *)
(** Row [r] of length [n] has the index pairs (r, 0) ... (r, n - 1). *)
Definition row_major (lens : list nat) : list (nat * Z) :=
  concat (map (fun rn => map (fun c => (fst rn, Z.of_nat c)) (seq 0 (snd rn))) (combine (seq 0 (length lens)) lens)).
(** Row [r] starts behind the elements of the rows before. *)
Definition row_starts (lens : list nat) : list nat := map (fun r => list_sum (firstn r lens)) (seq 0 (S (length lens))).

Definition C52_full : Prop := forall lens, lens <> [] ->
  bcoo_indices lens = Some (row_major lens) /\ bcsr_indices lens = Some (map snd (row_major lens), row_starts lens) /\
  bcoo_indices_np lens = Some (map fst (row_major lens), map snd (row_major lens)).

(** The columns that are computed, row by row. *)
Fixpoint columns (prev start : nat) (lens : list nat) : list Z :=
  match lens with
  | [] => []
  | n :: ls => map (fun c => (Z.of_nat (start + c) - Z.of_nat prev)%Z) (seq 0 n) ++ columns n (start + n) ls
  end.
Fixpoint right_columns (lens : list nat) : list Z :=
  match lens with
  | [] => []
  | n :: ls => map Z.of_nat (seq 0 n) ++ right_columns ls
  end.
Fixpoint row_numbers (r : nat) (lens : list nat) : list nat :=
  match lens with
  | [] => []
  | n :: ls => repeat r n ++ row_numbers (S r) ls
  end.

Lemma offset_combine (prev : nat) lens : combine (prev :: but_last lens) lens = match lens with [] => [] | n :: ls => (prev, n) :: combine (n :: but_last ls) ls end.
Proof.
  destruct lens as [|n ls]; [reflexivity|]. cbn [combine]. f_equal. destruct ls as [|m ls]; [now rewrite !combine_nil|].
  unfold but_last. cbn [length Nat.sub firstn]. now rewrite Nat.sub_0_r.
Qed.

Lemma computed_columns lens : forall prev start,
  map (fun xy => (Z.of_nat (fst xy) - Z.of_nat (snd xy))%Z)
    (combine (seq start (list_sum lens)) (concat (map (fun xc => repeat (fst xc) (snd xc)) (combine (prev :: but_last lens) lens)))) = columns prev start lens.
Proof.
  induction lens as [|n ls IH]; intros prev start; [reflexivity|].
  rewrite offset_combine. cbn [map concat fst snd columns]. change (list_sum (n :: ls)) with (n + list_sum ls). rewrite seq_app.
  assert (A : forall (x y : list nat) x' y', length x = length y -> combine (x ++ x') (y ++ y') = combine x y ++ combine x' y').
  { induction x as [|a x IHx]; intros [|b y] x' y' L; try discriminate; [reflexivity|]. cbn. f_equal. apply IHx. cbn in L. lia. }
  rewrite A by now rewrite seq_length, repeat_length. rewrite map_app, IH. f_equal.
  clear. revert start. induction n as [|n IHn]; intros start; [reflexivity|]. cbn [seq repeat combine map fst snd]. f_equal.
  - rewrite Nat.add_0_r. reflexivity.
  - rewrite IHn, <- seq_shift, map_map. apply map_ext. intros c. f_equal. f_equal. lia.
Qed.

Lemma computed_rows lens : forall r, concat (map (fun xc => repeat (fst xc) (snd xc)) (combine (seq r (length lens)) lens)) = row_numbers r lens.
Proof. induction lens as [|n ls IH]; intros r; [reflexivity|]. cbn [length seq combine map concat fst snd row_numbers]. now rewrite IH. Qed.

Lemma row_major_from lens : forall r, concat (map (fun rn => map (fun c => (fst rn, Z.of_nat c)) (seq 0 (snd rn))) (combine (seq r (length lens)) lens)) = combine (row_numbers r lens) (right_columns lens).
Proof.
  induction lens as [|n ls IH]; intros r; [reflexivity|]. cbn [length seq combine map concat fst snd row_numbers right_columns].
  assert (A : forall (x : list nat) (y : list Z) x' y', length x = length y -> combine (x ++ x') (y ++ y') = combine x y ++ combine x' y').
  { induction x as [|a x IHx]; intros [|b y] x' y' L; try discriminate; [reflexivity|]. cbn. f_equal. apply IHx. cbn in L. lia. }
  rewrite A by now rewrite map_length, seq_length, repeat_length. rewrite IH. f_equal.
  generalize 0 as s. clear. induction n as [|n IHn]; intros s; [reflexivity|]. cbn. f_equal. apply IHn.
Qed.

Lemma right_columns_length lens : length (right_columns lens) = list_sum lens.
Proof. induction lens as [|n ls IH]; [reflexivity|]. cbn. now rewrite app_length, map_length, seq_length, IH. Qed.
Lemma columns_length lens : forall p s, length (columns p s lens) = list_sum lens.
Proof. induction lens as [|n ls IH]; intros p s; [reflexivity|]. cbn. now rewrite app_length, map_length, seq_length, IH. Qed.
Lemma row_numbers_length lens : forall r, length (row_numbers r lens) = list_sum lens.
Proof. induction lens as [|n ls IH]; intros r; [reflexivity|]. cbn. now rewrite app_length, repeat_length, IH. Qed.

(** Each non-empty row must start where the row before ends if that one is counted alone. *)
Fixpoint good (prev start : nat) (lens : list nat) : Prop :=
  match lens with
  | [] => True
  | n :: ls => (n > 0 -> start = prev) /\ good n (start + n) ls
  end.

Lemma columns_good lens : forall prev start, columns prev start lens = right_columns lens <-> good prev start lens.
Proof.
  induction lens as [|n ls IH]; intros prev start; cbn [columns right_columns good]; [tauto|]. rewrite <- IH. split.
  - intros H. assert (A : map (fun c : nat => (Z.of_nat (start + c) - Z.of_nat prev)%Z) (seq 0 n) = map Z.of_nat (seq 0 n) /\ columns n (start + n) ls = right_columns ls).
    { clear IH. revert H. generalize (columns n (start + n) ls) as x, (right_columns ls) as y. generalize (seq 0 n) as l. induction l as [|a l IHl]; cbn; intros x y H; [auto|].
      injection H as E H. destruct (IHl _ _ H) as [-> ->]. now rewrite E. }
    destruct A as [A ->]. split; [|reflexivity]. intros Hn. destruct n as [|n]; [lia|]. cbn [seq map] in A. injection A as A _. rewrite Nat.add_0_r in A. lia.
  - intros [A ->]. f_equal. destruct n as [|n]; [reflexivity|]. rewrite A by lia. apply map_ext. intros c. lia.
Qed.

Lemma good_nth lens : forall prev start, good prev start lens <->
  forall i n, nth_error lens i = Some n -> n > 0 -> start + list_sum (firstn i lens) = match i with O => prev | S i' => nth i' lens 0 end.
Proof.
  induction lens as [|m ls IH]; intros prev start; cbn [good].
  - split; [|auto]. intros _ i n H. destruct i; discriminate.
  - rewrite IH. split.
    + intros [A B] [|i] n H Hn; cbn [nth_error firstn] in *.
      * injection H as ->. cbn. rewrite Nat.add_0_r. auto.
      * specialize (B i n H Hn). change (list_sum (m :: firstn i ls)) with (m + list_sum (firstn i ls)). cbn [nth]. destruct i as [|i]; [|]; lia.
    + intros H. split.
      * intros Hm. specialize (H 0 m eq_refl Hm). cbn in H. lia.
      * intros i n Hi Hn. specialize (H (S i) n Hi Hn). cbn [firstn nth] in H. change (list_sum (m :: firstn i ls)) with (m + list_sum (firstn i ls)) in H. destruct i as [|i]; lia.
Qed.

Lemma but_last_length {A} (l : list A) : length (but_last l) = length l - 1.
Proof. unfold but_last. rewrite firstn_length. lia. Qed.

Lemma bcoo_value lens : lens <> [] -> bcoo_indices lens = Some (combine (row_numbers 0 lens) (columns 0 0 lens)).
Proof.
  intros Hne. unfold bcoo_indices, np_repeat. rewrite seq_length, Nat.eqb_refl. cbn [length]. rewrite but_last_length.
  replace (S (length lens - 1) =? length lens) with true by (symmetry; apply Nat.eqb_eq; destruct lens; [contradiction|cbn; lia]).
  unfold array_sub. rewrite computed_rows, computed_columns.
  replace (length (seq 0 (list_sum lens)) =? _) with true; [reflexivity|]. symmetry. apply Nat.eqb_eq.
  assert (L := columns_length lens 0 0). rewrite <- (computed_columns lens 0 0), map_length, combine_length, seq_length in L. rewrite seq_length.
  assert (L2 : forall prev ls, length (concat (map (fun xc : nat * nat => repeat (fst xc) (snd xc)) (combine (prev :: but_last ls) ls))) = list_sum ls).
  { intros prev ls. revert prev. induction ls as [|n ls IH]; intros prev; [reflexivity|]. rewrite offset_combine. cbn [map concat fst snd]. rewrite app_length, repeat_length, IH. reflexivity. }
  now rewrite L2.
Qed.

Lemma bcoo_np_value lens : lens <> [] -> bcoo_indices_np lens = Some (row_numbers 0 lens, columns 0 0 lens).
Proof.
  intros Hne. unfold bcoo_indices_np. pose proof (bcoo_value lens Hne) as E. unfold bcoo_indices in E.
  destruct (np_repeat (seq 0 (length lens)) lens) as [rows|] eqn:Er; [|discriminate]. destruct (np_repeat (0 :: but_last lens) lens) as [cum|] eqn:Ec; [|discriminate].
  destruct (array_sub (seq 0 (list_sum lens)) cum) as [cols|] eqn:Es; [|discriminate].
  assert (cols = columns 0 0 lens) as ->.
  { unfold array_sub in Es. destruct (_ =? _) eqn:El; [|discriminate]. injection Es as <-. unfold np_repeat in Ec. destruct (length (0 :: but_last lens) =? length lens); [|discriminate]. injection Ec as <-. apply computed_columns. }
  assert (rows = row_numbers 0 lens) as ->.
  { unfold np_repeat in Er. destruct (_ =? _) eqn:El; [|discriminate]. injection Er as <-. apply computed_rows. }
  now rewrite row_numbers_length, columns_length, Nat.eqb_refl.
Qed.

Lemma bcsr_value lens : lens <> [] -> bcsr_indices lens = Some (columns 0 0 lens, row_starts lens).
Proof.
  intros Hne. unfold bcsr_indices. pose proof (bcoo_value lens Hne) as E. unfold bcoo_indices in E.
  destruct (np_repeat (seq 0 (length lens)) lens) as [rows|] eqn:Er; [|discriminate]. destruct (np_repeat (0 :: but_last lens) lens) as [cum|] eqn:Ec; [|discriminate].
  destruct (array_sub (seq 0 (list_sum lens)) cum) as [cols|] eqn:Es; [|discriminate]. f_equal. f_equal.
  - injection E as E. unfold array_sub in Es. destruct (_ =? _) eqn:El; [|discriminate]. injection Es as <-. unfold np_repeat in Ec. destruct (length (0 :: but_last lens) =? length lens); [|discriminate]. injection Ec as <-. apply computed_columns.
  - clear. unfold row_starts. cbn [seq map firstn]. f_equal.
    assert (A : forall ls acc, cumsum_from acc ls = map (fun r => acc + list_sum (firstn r ls)) (seq 1 (length ls))).
    { induction ls as [|n ls IH]; intros acc; [reflexivity|]. cbn [cumsum_from length seq map firstn]. f_equal.
      - cbn. lia.
      - rewrite IH, <- (seq_shift (length ls) 1), map_map. apply map_ext. intros r. cbn [firstn]. change (list_sum (n :: firstn r ls)) with (n + list_sum (firstn r ls)). lia. }
    rewrite A. reflexivity.
Qed.

Lemma combine_fst {A B} (x : list A) (y : list B) : length x = length y -> map fst (combine x y) = x.
Proof. revert y. induction x as [|a x IH]; intros [|b y] H; try discriminate; [reflexivity|]. cbn. f_equal. apply IH. now injection H. Qed.
Lemma combine_snd {A B} (x : list A) (y : list B) : length x = length y -> map snd (combine x y) = y.
Proof. revert y. induction x as [|a x IH]; intros [|b y] L; try discriminate; [reflexivity|]. cbn. f_equal. apply IH. cbn in L. lia. Qed.

(** The result is right for exactly those row lengths where nothing precedes the row before a non-empty row.  The indent
    pointer is always right. *)
Theorem C52_indices_partial lens : lens <> [] ->
  let fits := forall r n, nth_error lens (S (S r)) = Some n -> n > 0 -> list_sum (firstn (S r) lens) = 0 in
  (bcoo_indices lens = Some (row_major lens) <-> fits) /\
  (bcsr_indices lens = Some (map snd (row_major lens), row_starts lens) <-> fits) /\
  (bcoo_indices_np lens = Some (map fst (row_major lens), map snd (row_major lens)) <-> fits) /\
  exists cols, bcsr_indices lens = Some (cols, row_starts lens).
Proof.
  intros Hne fits. assert (F : good 0 0 lens <-> fits).
  { rewrite good_nth. unfold fits. split.
    - intros H r n Hr Hn. specialize (H (S (S r)) n Hr Hn). cbn [Nat.add] in H.
      assert (A : forall l i, list_sum (firstn (S i) l) = list_sum (firstn i l) + nth i l 0).
      { induction l as [|a l IH]; intros i; [destruct i; reflexivity|]. destruct i as [|i]; [cbn; lia|]. cbn [firstn nth]. change (list_sum (a :: ?l)) with (a + list_sum l). specialize (IH i). cbn [firstn] in IH. lia. }
      rewrite (A lens (S r)) in H. lia.
    - intros H [|[|r]] n Hr Hn; [reflexivity| |].
      + destruct lens as [|a lens]; [contradiction|]. cbn. lia.
      + specialize (H r n Hr Hn).
        assert (A : forall l i, list_sum (firstn (S i) l) = list_sum (firstn i l) + nth i l 0).
        { induction l as [|a l IH]; intros i; [destruct i; reflexivity|]. destruct i as [|i]; [cbn; lia|]. cbn [firstn nth]. change (list_sum (a :: ?l)) with (a + list_sum l). specialize (IH i). cbn [firstn] in IH. lia. }
        rewrite (A lens (S r)). lia. }
  unfold row_major. rewrite row_major_from, bcoo_value, bcsr_value, bcoo_np_value by assumption. split; [|split; [|split]].
  - rewrite <- F, <- columns_good. split; [|intros ->; reflexivity]. intros H. injection H as H.
    rewrite <- (combine_snd (row_numbers 0 lens) (columns 0 0 lens)), H by now rewrite row_numbers_length, columns_length. apply combine_snd. now rewrite row_numbers_length, right_columns_length.
  - rewrite <- F, <- columns_good. rewrite combine_snd by now rewrite row_numbers_length, right_columns_length. split; [intros H; now injection H|intros ->; reflexivity].
  - rewrite <- F, <- columns_good. rewrite combine_snd, combine_fst by now rewrite row_numbers_length, right_columns_length. split; [intros H; now injection H|intros ->; reflexivity].
  - eauto.
Qed.

(** Three rows of length one: the last column index is 1. *)
Theorem C52_refuted : ~ C52_full.
Proof. intros F. destruct (F [1; 1; 1]) as [A _]; [discriminate|]. discriminate A. Qed.

Example C52_case : bcoo_indices [2; 3] = Some [(0, 0%Z); (0, 1%Z); (1, 0%Z); (1, 1%Z); (1, 2%Z)] /\ bcsr_indices [2; 3] = Some ([0; 1; 0; 1; 2]%Z, [0; 2; 5]) /\
  bcoo_indices_np [2; 3] = Some ([0; 0; 1; 1; 1], [0; 1; 0; 1; 2]%Z).
Proof. repeat split; reflexivity. Qed.

(** ** C53 *)
(** The rank of an index: how many distinct smaller ones there are. *)
Definition rank (l : list Z) (x : Z) : nat := length (filter (fun y => (y <? x)%Z) (nodup Z.eq_dec l)).

Lemma zinsert_In x y l : In y (zinsert x l) <-> y = x \/ In y l.
Proof.
  induction l as [|a l IH]; cbn [zinsert]; [cbn; intuition auto|]. destruct (Z.ltb_spec x a); [cbn; intuition auto|]. destruct (Z.eqb_spec x a).
  - subst. cbn. intuition auto.
  - cbn [In]. rewrite IH. intuition auto.
Qed.
Lemma zinsert_sorted x l : StronglySorted Z.lt l -> StronglySorted Z.lt (zinsert x l).
Proof.
  induction 1 as [|a l Hs IH Hf]; cbn [zinsert]; [repeat constructor|]. destruct (Z.ltb_spec x a); [|destruct (Z.eqb_spec x a)].
  - constructor; [now constructor|]. constructor; [assumption|]. eapply Forall_impl; [|exact Hf]. cbn. lia.
  - now constructor.
  - constructor; [assumption|]. apply Forall_forall. intros y Hy. apply zinsert_In in Hy. destruct Hy as [->|Hy]; [lia|]. rewrite Forall_forall in Hf. auto.
Qed.
Lemma unique_In y l : In y (unique l) <-> In y l.
Proof. induction l as [|a l IH]; cbn [unique fold_right]; [tauto|]. fold (unique l). rewrite zinsert_In, IH. cbn. intuition auto. Qed.
Lemma unique_sorted l : StronglySorted Z.lt (unique l).
Proof. induction l as [|a l IH]; cbn [unique fold_right]; [constructor|]. now apply zinsert_sorted. Qed.
Lemma sorted_NoDup l : StronglySorted Z.lt l -> NoDup l.
Proof. induction 1 as [|a l Hs IH Hf]; constructor; auto. intros H. rewrite Forall_forall in Hf. specialize (Hf _ H). lia. Qed.

Lemma filter_perm {A} (p : A -> bool) l l' : Permutation l l' -> length (filter p l) = length (filter p l').
Proof. induction 1 as [|a l l' _ IH|a b l|l1 l2 l3 _ IH1 _ IH2]; cbn; auto; try (destruct (p a)); try (destruct (p b)); cbn; congruence. Qed.

Lemma rank_unique l x : rank l x = length (filter (fun y => (y <? x)%Z) (unique l)).
Proof.
  apply filter_perm. apply NoDup_Permutation; [apply NoDup_nodup|apply sorted_NoDup, unique_sorted|]. intros y. now rewrite nodup_In, unique_In.
Qed.

Fixpoint trace (k : nat) (us : list Z) (x : Z) : Z :=
  match us with
  | [] => x
  | u :: us' => trace (S k) us' (if (x =? u)%Z then Z.of_nat k else x)
  end.
Lemma relabel_all_map us : forall k col, relabel_all k us col = map (trace k us) col.
Proof. induction us as [|u us IH]; intros k col; cbn [relabel_all trace]; [now rewrite map_id|]. rewrite IH. unfold relabel. now rewrite map_map. Qed.

Lemma trace_below us : forall k x, Forall (fun u => x < u)%Z us -> trace k us x = x.
Proof. induction us as [|u us IH]; intros k x H; cbn [trace]; [reflexivity|]. inversion H; subst. destruct (Z.eqb_spec x u); [lia|]. auto. Qed.

Lemma trace_rank us : forall k x, StronglySorted Z.lt us -> Forall (fun u => Z.of_nat k <= u)%Z us -> In x us ->
  trace k us x = Z.of_nat (k + length (filter (fun y => (y <? x)%Z) us)).
Proof.
  induction us as [|u us IH]; intros k x Hs Hk Hx; [destruct Hx|]. inversion Hs as [|? ? Hs' Hf]; subst. inversion Hk as [|? ? Hu Hk']; subst.
  cbn [trace filter]. destruct (Z.eqb_spec x u) as [->|N].
  - rewrite trace_below; [|eapply Forall_impl; [|exact Hf]; cbn; intros; lia]. rewrite Z.ltb_irrefl.
    replace (filter (fun y => (y <? u)%Z) us) with (@nil Z); [cbn; lia|]. symmetry. clear -Hf. induction Hf as [|a l Ha _ IH]; cbn; [reflexivity|]. destruct (Z.ltb_spec a u); [lia|auto].
  - destruct Hx as [->|Hx]; [congruence|]. rewrite Forall_forall in Hf. assert (Hux := Hf _ Hx). destruct (Z.ltb_spec u x); [|lia]. cbn [length].
    rewrite IH; auto; [f_equal; lia|]. apply Forall_forall. intros y Hy. specialize (Hf _ Hy). lia.
Qed.

Lemma shrink_column_rank col : Forall (fun x => 0 <= x)%Z col -> shrink_column col = map (fun x => Z.of_nat (rank col x)) col.
Proof.
  intros H. unfold shrink_column. rewrite relabel_all_map. apply map_ext_in. intros x Hx. rewrite rank_unique. rewrite trace_rank; auto using unique_sorted.
  - apply Forall_forall. intros y Hy. apply (proj1 (unique_In _ _)) in Hy. rewrite Forall_forall in H. specialize (H _ Hy). lia.
  - now apply unique_In.
Qed.

Theorem C53_shrink (columns : list (list Z)) : Forall (Forall (fun x => 0 <= x)%Z) columns ->
  shrink_index_array columns = map (fun col => map (fun x => Z.of_nat (rank col x)) col) columns.
Proof. intros H. unfold shrink_index_array. apply map_ext_in. intros col Hc. rewrite Forall_forall in H. now apply shrink_column_rank, H. Qed.

Lemma rank_lt l x y : In x l -> (x < y)%Z -> rank l x < rank l y.
Proof.
  intros Hx Hxy. unfold rank. apply (nodup_In Z.eq_dec) in Hx. revert Hx. generalize (nodup Z.eq_dec l) as u. induction u as [|a u IH]; intros Hx; [destruct Hx|]. cbn [filter].
  assert (M : length (filter (fun z => (z <? x)%Z) u) <= length (filter (fun z => (z <? y)%Z) u)).
  { clear -Hxy. induction u as [|a u IH]; cbn [filter]; [lia|]. destruct (Z.ltb_spec a x), (Z.ltb_spec a y); cbn [length]; lia. }
  destruct Hx as [->|Hx].
  - rewrite Z.ltb_irrefl. destruct (Z.ltb_spec x y); [|lia]. cbn [length]. lia.
  - specialize (IH Hx). destruct (Z.ltb_spec a x), (Z.ltb_spec a y); cbn [length]; lia.
Qed.

(** The new indices are in the order of the old ones and are successive. *)
Theorem C53_order_isomorphism col : 
  (forall x y, In x col -> In y col -> ((x < y)%Z <-> rank col x < rank col y)) /\
  (forall k, (exists x, In x col /\ rank col x = k) <-> k < length (nodup Z.eq_dec col)).
Proof.
  split.
  - intros x y Hx Hy. split; [now apply rank_lt|]. intros H. destruct (Z.lt_trichotomy x y) as [A|[->|A]]; auto; [lia|]. pose proof (rank_lt col y x Hy A). lia.
  - intros k. assert (P : Permutation (nodup Z.eq_dec col) (unique col)).
    { apply NoDup_Permutation; [apply NoDup_nodup|apply sorted_NoDup, unique_sorted|]. intros y. now rewrite nodup_In, unique_In. }
    rewrite (Permutation_length P). assert (A : forall us, StronglySorted Z.lt us -> (exists x, In x us /\ length (filter (fun y => (y <? x)%Z) us) = k) <-> k < length us).
    { clear. intros us Hs. revert k. induction Hs as [|a us Hs IH Hf]; intros k; [split; [intros (x & [] & _)|cbn; lia]|]. cbn [length]. rewrite Forall_forall in Hf.
      assert (Z0 : length (filter (fun y => (y <? a)%Z) us) = 0). { clear -Hf. induction us as [|b us IH]; [reflexivity|]. cbn [filter]. assert (a < b)%Z by (apply Hf; now left). destruct (Z.ltb_spec b a); [lia|]. apply IH. intros; apply Hf; now right. }
      split.
      - intros (x & Hx & E). cbn [filter] in E. destruct Hx as [->|Hx].
        + rewrite Z.ltb_irrefl, Z0 in E. lia.
        + specialize (Hf _ Hx). destruct (Z.ltb_spec a x); [|lia]. cbn [length] in E. destruct k as [|k]; [lia|]. injection E as E. assert (k < length us) by (apply IH; eauto). lia.
      - intros Hk. destruct k as [|k].
        + exists a. split; [now left|]. cbn [filter]. now rewrite Z.ltb_irrefl, Z0.
        + assert (Hk' : k < length us) by lia. apply IH in Hk'. destruct Hk' as (x & Hx & E). exists x. split; [now right|]. cbn [filter]. specialize (Hf _ Hx). destruct (Z.ltb_spec a x); [|lia]. cbn [length]. now rewrite E. }
    rewrite <- (A _ (unique_sorted col)). split; intros (x & Hx & E); exists x; rewrite rank_unique in *; split; auto; now apply unique_In.
Qed.

Example C53_case : shrink_index_array [[0; 1; 4]; [3; 0; 1]]%Z = [[0; 1; 2]; [2; 0; 1]]%Z.
Proof. reflexivity. Qed.
(** Indices are not negative; on negative numbers a new index can be mistaken for an old one. *)
Example C53_guard : shrink_column [-1; 0]%Z = [1; 1]%Z.
Proof. reflexivity. Qed.

(** ** C63 *)
Definition lookup {A} (zero : A) (es : list (Z * Z * A)) (r c : Z) : A :=
  match find (fun e => (fst (fst e) =? r)%Z && (snd (fst e) =? c)%Z) es with Some e => snd e | None => zero end.
(** The dense matrix of a sparse one ([todense]). *)
Definition todense {A} (zero : A) (m : coo A) : list (list A) :=
  map (fun r => map (fun c => lookup zero (c_entries m) (Z.of_nat r) (Z.of_nat c)) (seq 0 (c_cols m))) (seq 0 (c_rows m)).
Record coo_ok {A} (m : coo A) : Prop := {
  ok_bounds : forall r c x, In (r, c, x) (c_entries m) -> (0 <= r < Z.of_nat (c_rows m) /\ 0 <= c < Z.of_nat (c_cols m))%Z;
  ok_unique : NoDup (map fst (c_entries m))
}.

Definition C63_full : Prop := forall (A : Type) (zero : A) (differs : A -> bool) (m : coo A),
  (forall v, differs v = false <-> v = zero) -> coo_ok m ->
  exists m', sparse_remove differs m = Some m' /\ todense zero m' = dense_remove differs (c_cols m) (todense zero m).

Lemma sorted_ext l : forall l', StronglySorted Z.lt l -> StronglySorted Z.lt l' -> (forall x, In x l <-> In x l') -> l = l'.
Proof.
  induction l as [|a l IH]; intros [|b l'] H H' E; auto.
  - exfalso. apply (E b). now left.
  - exfalso. apply (E a). now left.
  - inversion H as [|? ? Hs Hf]; inversion H' as [|? ? Hs' Hf']; subst. rewrite Forall_forall in Hf, Hf'.
    assert (a = b). { assert (X := proj1 (E a) (or_introl eq_refl)). assert (Y := proj2 (E b) (or_introl eq_refl)). destruct X as [X|X]; [auto|]. destruct Y as [Y|Y]; [auto|]. specialize (Hf _ Y). specialize (Hf' _ X). lia. }
    subst b. f_equal. apply IH; auto. intros x. split; intros Hx.
    + destruct (proj1 (E x) (or_intror Hx)) as [->|]; [|assumption]. specialize (Hf _ Hx). lia.
    + destruct (proj2 (E x) (or_intror Hx)) as [->|]; [|assumption]. specialize (Hf' _ Hx). lia.
Qed.

Lemma seq_sorted n : forall s, StronglySorted Z.lt (map Z.of_nat (seq s n)).
Proof.
  induction n as [|n IH]; intros s; cbn; constructor; auto. apply Forall_forall. intros x Hx. apply in_map_iff in Hx. destruct Hx as (k & <- & Hk). apply in_seq in Hk. lia.
Qed.
Lemma filter_sorted p l : StronglySorted Z.lt l -> StronglySorted Z.lt (filter p l).
Proof.
  induction 1 as [|a l Hs IH Hf]; cbn; [constructor|]. destruct (p a); auto. constructor; auto. apply Forall_forall. intros x Hx. apply filter_In in Hx. rewrite Forall_forall in Hf. now apply Hf.
Qed.

Lemma ranks_of_unique l : map (rank l) (unique l) = seq 0 (length (unique l)).
Proof.
  assert (A : forall us, StronglySorted Z.lt us -> map (fun x => length (filter (fun y => (y <? x)%Z) us)) us = seq 0 (length us)).
  { induction 1 as [|a us Hs IH Hf]; [reflexivity|]. cbn [map length seq]. rewrite Forall_forall in Hf. f_equal.
    - cbn [filter]. rewrite Z.ltb_irrefl. clear -Hf. induction us as [|b us IH]; [reflexivity|]. cbn [filter]. assert (a < b)%Z by (apply Hf; now left). destruct (Z.ltb_spec b a); [lia|]. apply IH. intros; apply Hf; now right.
    - rewrite <- seq_shift, <- IH, map_map. apply map_ext_in. intros x Hx. cbn [filter]. specialize (Hf _ Hx). destruct (Z.ltb_spec a x); [reflexivity|lia]. }
  rewrite <- (A _ (unique_sorted l)). apply map_ext. apply rank_unique.
Qed.

Lemma zmax_spec l m : In m l -> (forall x, In x l -> (x <= m)%Z) -> zmax l = Some m.
Proof.
  assert (G : forall l x, (x <= fold_left Z.max l x)%Z /\ (forall y, In y l -> (y <= fold_left Z.max l x)%Z) /\ (fold_left Z.max l x = x \/ In (fold_left Z.max l x) l)).
  { clear. induction l as [|a l IH]; intros x; cbn [fold_left]; [repeat split; [lia|intros y []|now left]|]. destruct (IH (Z.max x a)) as (A & B & C). split; [lia|]. split.
    - intros y [<-|Hy]; [lia|auto].
    - destruct C as [C|C]; [|right; now right]. rewrite C. destruct (Z.max_spec x a) as [[_ ->]|[_ ->]]; [right; now left|now left]. }
  destruct l as [|a l]; intros Hm H; [destruct Hm|]. cbn [zmax]. f_equal. destruct (G l a) as (A & B & C). apply Z.le_antisymm.
  - destruct C as [->|C]; apply H; [now left|now right].
  - destruct Hm as [<-|Hm]; auto.
Qed.

Lemma zmax_ranks l : l <> [] -> zmax (map (fun x => Z.of_nat (rank l x)) l) = Some (Z.of_nat (length (unique l)) - 1)%Z.
Proof.
  intros Hne. assert (P : length (nodup Z.eq_dec l) = length (unique l)).
  { apply Permutation_length. apply NoDup_Permutation; [apply NoDup_nodup|apply sorted_NoDup, unique_sorted|]. intros y. now rewrite nodup_In, unique_In. }
  destruct (C53_order_isomorphism l) as [_ O]. rewrite P in O. assert (L : length (unique l) > 0).
  { destruct l as [|a l]; [contradiction|]. assert (In a (unique (a :: l))) by (apply unique_In; now left). destruct (unique (a :: l)); [contradiction|cbn; lia]. }
  apply zmax_spec.
  - destruct (proj2 (O (length (unique l) - 1)) ltac:(lia)) as (x & Hx & E). apply in_map_iff. exists x. split; [lia|assumption].
  - intros y Hy. apply in_map_iff in Hy. destruct Hy as (x & <- & Hx). assert (rank l x < length (unique l)) by (apply O; eauto). lia.
Qed.

Lemma keep_map {A B} (p : A -> bool) (f : A -> B) l : map snd (filter fst (combine (map p l) (map f l))) = map f (filter p l).
Proof. induction l as [|a l IH]; [reflexivity|]. cbn. destruct (p a); cbn; now rewrite IH. Qed.

Lemma find_map {A B} (h : A -> B) p l : find p (map h l) = option_map h (find (fun x => p (h x)) l).
Proof. induction l as [|a l IH]; [reflexivity|]. cbn. destruct (p (h a)); auto. Qed.
Lemma find_ext_in {A} (p q : A -> bool) l : (forall x, In x l -> p x = q x) -> find p l = find q l.
Proof. induction l as [|a l IH]; intros H; [reflexivity|]. cbn. rewrite (H a) by now left. rewrite IH; auto. intros; apply H; now right. Qed.

Lemma rank_inj l x y : In x l -> In y l -> rank l x = rank l y -> x = y.
Proof. intros Hx Hy E. destruct (Z.lt_trichotomy x y) as [A|[A|A]]; auto; [pose proof (rank_lt l x y Hx A)|pose proof (rank_lt l y x Hy A)]; lia. Qed.

(** Removing from the sparse matrix is removing from the dense one, if zero is what is removed and the matrix is not zero. *)
Theorem C63_remove_partial (A : Type) (zero : A) (differs : A -> bool) (m : coo A) : (forall v, differs v = false <-> v = zero) -> coo_ok m ->
  (exists e, In e (c_entries m) /\ differs (snd e) = true) ->
  exists m', sparse_remove differs m = Some m' /\ coo_ok m' /\ todense zero m' = dense_remove differs (c_cols m) (todense zero m).
Proof.
  intros Hz [Hb Hu] (e0 & He0 & Hd0). unfold sparse_remove. set (valid := filter (fun e => differs (snd e)) (c_entries m)).
  set (RR := map (fun e : Z * Z * A => fst (fst e)) valid). set (CC := map (fun e : Z * Z * A => snd (fst e)) valid).
  assert (V0 : In e0 valid) by (now apply filter_In). assert (VI : forall e, In e valid -> In e (c_entries m)) by (intros e He; apply filter_In in He; tauto).
  assert (RB : forall x, In x RR -> (0 <= x < Z.of_nat (c_rows m))%Z). { intros x Hx. apply in_map_iff in Hx. destruct Hx as ([[r c] v] & <- & He). apply (Hb r c v). auto. }
  assert (CB : forall x, In x CC -> (0 <= x < Z.of_nat (c_cols m))%Z). { intros x Hx. apply in_map_iff in Hx. destruct Hx as ([[r c] v] & <- & He). apply (Hb r c v). auto. }
  rewrite (shrink_column_rank RR), (shrink_column_rank CC); try (apply Forall_forall; intros; first [now apply RB|now apply CB]).
  assert (NR : RR <> []) by (intros E; unfold RR in E; apply map_eq_nil in E; rewrite E in V0; destruct V0). assert (NC : CC <> []) by (intros E; unfold CC in E; apply map_eq_nil in E; rewrite E in V0; destruct V0).
  rewrite !zmax_ranks by assumption. eexists. split; [reflexivity|].
  replace (Z.to_nat (Z.of_nat (length (unique RR)) - 1 + 1)) with (length (unique RR)) by lia. replace (Z.to_nat (Z.of_nat (length (unique CC)) - 1 + 1)) with (length (unique CC)) by lia.
  assert (E : combine (combine (map (fun x => Z.of_nat (rank RR x)) RR) (map (fun x => Z.of_nat (rank CC x)) CC)) (map snd valid)
            = map (fun e => ((Z.of_nat (rank RR (fst (fst e))), Z.of_nat (rank CC (snd (fst e)))), snd e)) valid).
  { unfold RR at 2, CC at 2. generalize valid as l, (rank RR) as f, (rank CC) as g. clear. induction l as [|a l IH]; intros f g; [reflexivity|]. cbn. f_equal. apply IH. }
  assert (E' := E). unfold RR at 2 in E'. rewrite E. clear E E'.
  assert (RIn : forall e, In e valid -> In (fst (fst e)) RR) by (intros e He; unfold RR; now apply (in_map (fun e => fst (fst e)))).
  assert (CIn : forall e, In e valid -> In (snd (fst e)) CC) by (intros e He; unfold CC; now apply (in_map (fun e => snd (fst e)))).
  assert (SU : forall (l : list Z) n (p : nat -> bool), (forall x, In x l -> (0 <= x < Z.of_nat n)%Z) -> (forall k, k < n -> p k = true <-> In (Z.of_nat k) l) -> map Z.of_nat (filter p (seq 0 n)) = unique l).
  { clear. intros l n p Hl Hp. apply sorted_ext; [|apply unique_sorted|].
    - assert (X : map Z.of_nat (filter p (seq 0 n)) = filter (fun z => p (Z.to_nat z)) (map Z.of_nat (seq 0 n))).
      { generalize (seq 0 n) as s. induction s as [|a s IH]; [reflexivity|]. cbn. rewrite Nat2Z.id. destruct (p a); cbn; now rewrite IH. }
      rewrite X. apply filter_sorted, seq_sorted.
    - intros x. rewrite unique_In, in_map_iff. split.
      + intros (k & <- & Hk). apply filter_In in Hk. destruct Hk as [Hk1 Hk2]. apply in_seq in Hk1. apply Hp; [lia|assumption].
      + intros Hx. specialize (Hl _ Hx). exists (Z.to_nat x). split; [lia|]. apply filter_In. split; [apply in_seq; lia|]. apply Hp; [lia|]. rewrite Z2Nat.id by lia. assumption. }
  assert (LK : forall r c, differs (lookup zero (c_entries m) r c) = true <-> exists v, In (r, c, v) valid).
  { intros r c. unfold lookup. destruct (find _ (c_entries m)) as [[[r' c'] v]|] eqn:F.
    - apply find_some in F. destruct F as [F1 F2]. cbn in F2. apply andb_prop in F2. destruct F2 as [F2 F3]. apply Z.eqb_eq in F2, F3. subst r' c'. cbn [snd]. split.
      + intros H. exists v. now apply filter_In.
      + intros (v' & Hv). apply filter_In in Hv. destruct Hv as [Hv1 Hv2]. cbn [snd] in Hv2. assert (v' = v); [|congruence].
        clear -Hu F1 Hv1. induction (c_entries m) as [|[k w] l IH]; [destruct F1|]. cbn [map fst] in Hu. inversion Hu as [|? ? Hn Hu']; subst.
        destruct F1 as [F1|F1], Hv1 as [Hv1|Hv1]; auto; try congruence.
        * injection F1 as -> ->. exfalso. apply Hn. apply (in_map fst) in Hv1. exact Hv1.
        * injection Hv1 as -> ->. exfalso. apply Hn. apply (in_map fst) in F1. exact F1.
    - split.
      + intros H. rewrite (proj2 (Hz zero) eq_refl) in H. discriminate.
      + intros (v & Hv). pose proof (find_none _ _ F _ (VI _ Hv)) as X. cbn in X. now rewrite !Z.eqb_refl in X. }
  split.
  { constructor; cbn [c_rows c_cols c_entries].
    - intros r c x Hx. apply in_map_iff in Hx. destruct Hx as (e & X & He). injection X as <- <- <-.
      assert (B : forall l x, In x l -> rank l x < length (unique l)).
      { clear. intros l x Hx. apply (proj2 (unique_In x l)) in Hx. apply (in_map (rank l)) in Hx. rewrite ranks_of_unique in Hx. apply in_seq in Hx. lia. }
      pose proof (B _ _ (RIn _ He)). pose proof (B _ _ (CIn _ He)). lia.
    - assert (NV : NoDup (map fst valid)). { unfold valid. clear -Hu. induction (c_entries m) as [|a l IH]; [constructor|]. cbn [map filter] in *. inversion Hu as [|? ? Hn Hu']; subst. destruct (differs (snd a)); auto. cbn [map]. constructor; auto. intros H. apply Hn. apply in_map_iff in H. destruct H as (b & E & Hb). apply filter_In in Hb. rewrite <- E. apply in_map. tauto. }
      rewrite map_map. cbn [fst]. rewrite <- (map_map fst (fun rc => (Z.of_nat (rank RR (fst rc)), Z.of_nat (rank CC (snd rc))))).
      assert (J : forall rc, In rc (map fst valid) -> In (fst rc) RR /\ In (snd rc) CC). { intros rc H. apply in_map_iff in H. destruct H as (e & <- & He). auto. }
      revert NV J. generalize (map fst valid) as l. induction l as [|[r c] l IH]; intros NV J; [constructor|]. inversion NV as [|? ? Hn NV']; subst. cbn [map]. constructor.
      + intros H. apply in_map_iff in H. destruct H as ([r' c'] & E & H). cbn [fst snd] in E. injection E as E1 E2. apply Nat2Z.inj in E1, E2. destruct (J (r, c) (or_introl eq_refl)) as [J1 J2]. destruct (J (r', c') (or_intror H)) as [J3 J4]. cbn [fst snd] in *.
        apply (rank_inj RR) in E1; auto. apply (rank_inj CC) in E2; auto. now subst.
      + apply IH; auto. intros; apply J; now right. }
  assert (DR : map Z.of_nat (filter (fun r => existsb differs (map (fun c => lookup zero (c_entries m) (Z.of_nat r) (Z.of_nat c)) (seq 0 (c_cols m)))) (seq 0 (c_rows m))) = unique RR).
  { apply SU; auto. intros k Hk. rewrite existsb_exists. split.
    - intros (v & Hv & Hd). apply in_map_iff in Hv. destruct Hv as (c & <- & Hc). apply LK in Hd. destruct Hd as (v & Hv). apply (RIn _ Hv).
    - intros Hx. apply in_map_iff in Hx. destruct Hx as ([[r c] v] & Er & He). cbn [fst] in Er. subst r. destruct (Hb _ _ _ (VI _ He)) as [_ Bc]. exists (lookup zero (c_entries m) (Z.of_nat k) c). split.
      + apply in_map_iff. exists (Z.to_nat c). rewrite Z2Nat.id by lia. split; [reflexivity|]. apply in_seq. lia.
      + apply LK. eauto. }
  assert (DC : map Z.of_nat (filter (fun c => existsb (fun row => match nth_error row c with Some x => differs x | None => false end) (todense zero m)) (seq 0 (c_cols m))) = unique CC).
  { apply SU; auto. intros k Hk. rewrite existsb_exists. unfold todense.
    assert (NE : forall r, nth_error (map (fun c => lookup zero (c_entries m) (Z.of_nat r) (Z.of_nat c)) (seq 0 (c_cols m))) k = Some (lookup zero (c_entries m) (Z.of_nat r) (Z.of_nat k))).
    { intros r. apply (map_nth_error (fun c => lookup zero (c_entries m) (Z.of_nat r) (Z.of_nat c))). rewrite nth_error_nth' with (d := 0) by now rewrite seq_length. now rewrite seq_nth. }
    split.
    - intros (row & Hr & Hd). apply in_map_iff in Hr. destruct Hr as (r & <- & Hr). rewrite NE in Hd. apply LK in Hd. destruct Hd as (v & Hv). apply (CIn _ Hv).
    - intros Hx. apply in_map_iff in Hx. destruct Hx as ([[r c] v] & Er & He). cbn [fst snd] in Er. subst c. destruct (Hb _ _ _ (VI _ He)) as [Br _].
      eexists. split; [apply in_map_iff; exists (Z.to_nat r); split; [reflexivity|apply in_seq; lia]|]. rewrite NE, Z2Nat.id by lia. apply LK. eauto. }
  assert (DD : dense_remove differs (c_cols m) (todense zero m) = map (fun r => map (lookup zero (c_entries m) r) (unique CC)) (unique RR)).
  { unfold dense_remove. cbv zeta. rewrite <- DC, <- DR.
    generalize (fun c => existsb (fun row => match nth_error row c with Some x => differs x | None => false end) (todense zero m)) as mask. intros mask.
    unfold todense. rewrite (map_map (fun r => map (fun c => lookup zero (c_entries m) (Z.of_nat r) (Z.of_nat c)) (seq 0 (c_cols m))) (fun row => existsb differs row)). rewrite (keep_map (fun x => existsb differs (map (fun c => lookup zero (c_entries m) (Z.of_nat x) (Z.of_nat c)) (seq 0 (c_cols m))))), !map_map.
    apply map_ext. intros r. rewrite keep_map, map_map. reflexivity. }
  rewrite DD. unfold todense. cbn [c_rows c_cols c_entries].
  rewrite <- (ranks_of_unique RR), <- (ranks_of_unique CC), !map_map. apply map_ext_in. intros u Hu'. apply (proj1 (unique_In _ _)) in Hu'. rewrite ?map_map. apply map_ext_in. intros w Hw. apply (proj1 (unique_In _ _)) in Hw.
  unfold lookup at 1. rewrite find_map. rewrite (find_ext_in _ (fun e => (fst (fst e) =? u)%Z && (snd (fst e) =? w)%Z)).
  2:{ intros e He. cbn [fst snd]. f_equal.
      - destruct (Z.eqb_spec (fst (fst e)) u) as [->|N]; [apply Z.eqb_refl|]. apply Z.eqb_neq. intros X. apply N. apply (rank_inj RR); auto. lia.
      - destruct (Z.eqb_spec (snd (fst e)) w) as [->|N]; [apply Z.eqb_refl|]. apply Z.eqb_neq. intros X. apply N. apply (rank_inj CC); auto. lia. }
  destruct (find _ valid) as [[[r c] v]|] eqn:F; cbn [option_map snd].
  - apply find_some in F. destruct F as [F1 F2]. cbn [fst snd] in F2. apply andb_prop in F2. destruct F2 as [F2 F3]. apply Z.eqb_eq in F2, F3. subst r c.
    unfold lookup. destruct (find _ (c_entries m)) as [[[r' c'] v']|] eqn:G.
    + apply find_some in G. destruct G as [G1 G2]. cbn [fst snd] in G2. apply andb_prop in G2. destruct G2 as [G2 G3]. apply Z.eqb_eq in G2, G3. subst r' c'. cbn [snd].
      apply VI in F1. clear -Hu F1 G1. induction (c_entries m) as [|[k x] l IH]; [destruct F1|]. cbn [map fst] in Hu. inversion Hu as [|? ? Hn Hu']; subst.
      destruct F1 as [F1|F1], G1 as [G1|G1]; auto; try congruence.
      * injection F1 as -> ->. exfalso. apply Hn. apply (in_map fst) in G1. exact G1.
      * injection G1 as -> ->. exfalso. apply Hn. apply (in_map fst) in F1. exact F1.
    + pose proof (find_none _ _ G _ (VI _ F1)) as X. cbn in X. now rewrite !Z.eqb_refl in X.
  - destruct (differs (lookup zero (c_entries m) u w)) eqn:D.
    + apply LK in D. destruct D as (v & Hv). pose proof (find_none _ _ F _ Hv) as X. cbn in X. now rewrite !Z.eqb_refl in X.
    + symmetry. now apply Hz.
Qed.

(** The sparse version raises for the zero matrix. *)
Theorem C63_refuted : ~ C63_full.
Proof.
  intros F. destruct (F Z 0%Z (fun v => negb (v =? 0)%Z) (mkCoo 1 1 [])) as (m' & E & _); [| |discriminate].
  - intros v. rewrite negb_false_iff. apply Z.eqb_eq.
  - constructor; [intros r c x []|constructor].
Qed.

Example C63_case : sparse_remove (fun v => negb (v =? 0)%Z) (mkCoo 3 3 [(0, 0, 1); (0, 2, 3); (2, 0, 7); (2, 2, 9)]%Z) = Some (mkCoo 2 2 [(0, 0, 1); (0, 1, 3); (1, 0, 7); (1, 1, 9)]%Z).
Proof. reflexivity. Qed.

(** ** C86 *)
(** The value in row [r] and column [c] of a dense matrix. *)
Definition cell {A} (m : list (list A)) (r c : nat) : option A := match nth_error m r with Some row => nth_error row c | None => None end.
Definition shaped {A} (rows cols : nat) (m : list (list A)) : Prop := length m = rows /\ Forall (fun row => length row = cols) m.

Lemma set_at_length {A} : forall (l : list A) i x, length (set_at i x l) = length l.
Proof. induction l as [|y l IH]; intros [|i] x; cbn; auto. Qed.
Lemma set_at_nth {A} : forall (l : list A) i j x, nth_error (set_at i x l) j = if i =? j then match nth_error l j with Some _ => Some x | None => None end else nth_error l j.
Proof.
  induction l as [|y l IH]; intros [|i] [|j] x; cbn; auto. destruct (i =? j); reflexivity.
Qed.

Lemma at_set_shaped {A} rows cols (m : list (list A)) i j x : shaped rows cols m -> shaped rows cols (at_set rows cols m i j x).
Proof.
  intros [H1 H2]. unfold at_set. destruct (jax_index rows i) as [r|]; [|now split]. destruct (jax_index cols j) as [c|]; [|now split].
  destruct (nth_error m r) as [row|] eqn:E; [|now split]. split; [now rewrite set_at_length|]. apply Forall_forall. intros y Hy.
  apply In_nth_error in Hy. destruct Hy as [k Hk]. rewrite set_at_nth in Hk. rewrite Forall_forall in H2. destruct (Nat.eqb_spec r k) as [->|Hn].
  - rewrite E in Hk. injection Hk as <-. rewrite set_at_length. apply H2. eapply nth_error_In; eauto.
  - apply H2. eapply nth_error_In; eauto.
Qed.

Lemma jax_index_nat n i r : (0 <= i)%Z -> jax_index n i = Some r <-> i = Z.of_nat r /\ r < n.
Proof.
  intros Hi. unfold jax_index. replace (i <? 0)%Z with false by (symmetry; apply Z.ltb_ge; lia).
  destruct (Z.leb_spec 0 i); [|lia]. destruct (Z.ltb_spec i (Z.of_nat n)); cbn [andb].
  - split; [intros E; injection E as <-; lia|intros [-> _]; now rewrite Nat2Z.id].
  - split; [discriminate|lia].
Qed.

Lemma at_set_cell {A} rows cols (m : list (list A)) i j x r c : shaped rows cols m -> (0 <= i)%Z -> (0 <= j)%Z -> r < rows -> c < cols ->
  cell (at_set rows cols m i j x) r c = if (i =? Z.of_nat r)%Z && (j =? Z.of_nat c)%Z then Some x else cell m r c.
Proof.
  intros [H1 H2] Hi Hj Hr Hc. unfold at_set. destruct (jax_index rows i) as [r'|] eqn:Ei.
  - apply jax_index_nat in Ei; [|exact Hi]. destruct Ei as [-> Hr']. destruct (jax_index cols j) as [c'|] eqn:Ej.
    + apply jax_index_nat in Ej; [|exact Hj]. destruct Ej as [-> Hc'].
      destruct (nth_error m r') as [row|] eqn:E; [|apply nth_error_None in E; lia]. unfold cell. rewrite set_at_nth.
      destruct (Nat.eqb_spec r' r) as [->|Hn].
      * rewrite E, Z.eqb_refl. cbn [andb]. rewrite set_at_nth. assert (L : length row = cols) by (rewrite Forall_forall in H2; apply H2; eapply nth_error_In; eauto).
        destruct (Nat.eqb_spec c' c) as [->|Hn].
        -- rewrite Z.eqb_refl. destruct (nth_error row c) eqn:E'; [reflexivity|]. apply nth_error_None in E'. lia.
        -- destruct (Z.eqb_spec (Z.of_nat c') (Z.of_nat c)); [lia|reflexivity].
      * destruct (Z.eqb_spec (Z.of_nat r') (Z.of_nat r)); [lia|reflexivity].
    + destruct (Z.eqb_spec j (Z.of_nat c)) as [->|]; [|now rewrite andb_false_r]. exfalso.
      assert (X : jax_index cols (Z.of_nat c) = Some c) by (apply jax_index_nat; lia). congruence.
  - destruct (Z.eqb_spec i (Z.of_nat r)) as [->|]; [|reflexivity]. exfalso.
    assert (X : jax_index rows (Z.of_nat r) = Some r) by (apply jax_index_nat; lia). congruence.
Qed.

Lemma empty_cell {A} (x : A) rows cols r c : r < rows -> c < cols -> cell (repeat (repeat x cols) rows) r c = Some x.
Proof.
  intros Hr Hc. unfold cell. rewrite (nth_error_nth' _ (repeat x cols)) by now rewrite repeat_length. rewrite nth_repeat.
  rewrite (nth_error_nth' _ x) by now rewrite repeat_length. now rewrite nth_repeat.
Qed.

(** Exactly the stored values stand in the dense array, everything else is nan.  Entries beyond the shape (padding) are ignored. *)
Theorem C86_embed {A} (m : coo A) :
  (forall r c x, In (r, c, x) (c_entries m) -> (0 <= r)%Z /\ (0 <= c)%Z) ->
  (forall r c x y, In (r, c, x) (c_entries m) -> In (r, c, y) (c_entries m) -> (r < Z.of_nat (c_rows m))%Z -> (c < Z.of_nat (c_cols m))%Z -> x = y) ->
  shaped (c_rows m) (c_cols m) (embed m) /\
  forall r c, r < c_rows m -> c < c_cols m -> exists v, cell (embed m) r c = Some v /\
    forall x, v = Some x <-> In (Z.of_nat r, Z.of_nat c, x) (c_entries m).
Proof.
  intros Hpos Huniq. unfold embed.
  assert (S0 : shaped (c_rows m) (c_cols m) (repeat (repeat (@None A) (c_cols m)) (c_rows m))).
  { split; [apply repeat_length|]. apply Forall_forall. intros y Hy. apply repeat_spec in Hy. subst. apply repeat_length. }
  rewrite <- fold_left_rev_right.
  assert (Hpos' : forall r c x, In (r, c, x) (rev (c_entries m)) -> (0 <= r)%Z /\ (0 <= c)%Z) by (intros r c x H; apply (Hpos r c x); now apply in_rev).
  assert (Huniq' : forall r c x y, In (r, c, x) (rev (c_entries m)) -> In (r, c, y) (rev (c_entries m)) -> (r < Z.of_nat (c_rows m))%Z -> (c < Z.of_nat (c_cols m))%Z -> x = y)
    by (intros r c x y H H'; apply (Huniq r c x y); now apply in_rev).
  assert (G : forall es : list (Z * Z * A), (forall r c x, In (r, c, x) es -> (0 <= r)%Z /\ (0 <= c)%Z) ->
    (forall r c x y, In (r, c, x) es -> In (r, c, y) es -> (r < Z.of_nat (c_rows m))%Z -> (c < Z.of_nat (c_cols m))%Z -> x = y) ->
    let M := fold_right (fun (e : Z * Z * A) acc => at_set (c_rows m) (c_cols m) acc (fst (fst e)) (snd (fst e)) (Some (snd e))) (repeat (repeat None (c_cols m)) (c_rows m)) es in
    shaped (c_rows m) (c_cols m) M /\ forall r c, r < c_rows m -> c < c_cols m -> exists v, cell M r c = Some v /\ forall x, v = Some x <-> In (Z.of_nat r, Z.of_nat c, x) es).
  { clear - S0. induction es as [|[[i j] x] es IH]; intros Hpos Huniq; cbn [fold_right fst snd]; cbv zeta.
    - split; [exact S0|]. intros r c Hr Hc. exists None. split; [now apply empty_cell|]. intros x. split; [discriminate|intros []].
    - destruct IH as [S1 IH]; [intros r c y H; apply (Hpos r c y); now right|intros r c y z H H'; apply (Huniq r c y z); now right|].
      destruct (Hpos i j x (or_introl eq_refl)) as [Hi Hj]. split; [now apply at_set_shaped|]. intros r c Hr Hc. rewrite at_set_cell by auto.
      destruct (IH r c Hr Hc) as (v & E & Hv). destruct (Z.eqb_spec i (Z.of_nat r)) as [->|Hn]; [destruct (Z.eqb_spec j (Z.of_nat c)) as [->|Hn]|]; cbn [andb].
      + exists (Some x). split; [reflexivity|]. intros y. split; [intros H; injection H as <-; now left|]. intros H. f_equal.
        apply (Huniq (Z.of_nat r) (Z.of_nat c) x y); [now left|exact H|lia|lia].
      + exists v. split; [exact E|]. intros y. rewrite Hv. split; [now right|]. intros [H|H]; [congruence|exact H].
      + exists v. split; [exact E|]. intros y. rewrite Hv. split; [now right|]. intros [H|H]; [congruence|exact H]. }
  destruct (G (rev (c_entries m)) Hpos' Huniq') as [G1 G2]. split; [exact G1|]. intros r c Hr Hc. destruct (G2 r c Hr Hc) as (v & E & Hv).
  exists v. split; [exact E|]. intros x. rewrite Hv. symmetry. apply in_rev.
Qed.

(** A stored value, nan elsewhere, and a padding entry that is dropped. *)
Example C86_case : embed (mkCoo 2 2 [(0, 1, 5); (1, 0, 7); (2, 2, 9)]%Z) = [[None; Some 5%Z]; [Some 7%Z; None]].
Proof. reflexivity. Qed.

Print Assumptions C52_indices_partial.
Print Assumptions C52_refuted.
Print Assumptions C53_shrink.
Print Assumptions C53_order_isomorphism.
Print Assumptions C63_remove_partial.
Print Assumptions C63_refuted.
Print Assumptions C86_embed.
