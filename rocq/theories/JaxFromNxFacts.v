(** * JaxFromNxFacts: the layers written by from_nx *)
From Coq Require Import List Arith Bool Lia Sorted Permutation Reals Lra ZArith.
From Verif Require Import Num Graph GraphFacts Spec SpecFacts Circuit EvalFacts VarFacts Interval Dist DistFacts TreeLocal ModeFacts PropertiesDist BayesFacts SimplifyFacts RegionCircuit PropertiesJptParams
  JaxLayer JaxSpec JaxFromNx JaxFromNxSpec.
Import ListNotations.
Local Set Bullet Behavior "Strict Subproofs".
Local Open Scope nat_scope.

(** ** Lists *)

Lemma concat_app_perm {A B} (h k : A -> list B) cs : Permutation (concat (map (fun c => h c ++ k c) cs)) (concat (map h cs) ++ concat (map k cs)).
Proof.
  induction cs as [|c cs IH]; cbn; [constructor|]. rewrite IH. rewrite <- !app_assoc. apply Permutation_app_head. rewrite !app_assoc. apply Permutation_app_tail. apply Permutation_app_comm.
Qed.

(** Every element of [l] is taken care of by exactly one of [cs]. *)
Lemma spread {A B C} (cs : list C) (h : C -> A -> list B) (R : B -> A -> Prop) l :
  (forall x, In x l -> exists b, concat (map (fun c => h c x) cs) = [b] /\ R b x) ->
  exists l', Permutation (concat (map (fun c => flat_map (h c) l) cs)) l' /\ Forall2 R l' l.
Proof.
  induction l as [|x l IH]; intros H.
  - exists []. split; [|constructor]. cbn. clear. induction cs; cbn; auto.
  - destruct (H x (or_introl eq_refl)) as (b & Hb & Rb). destruct IH as (l' & P & F); [intros; apply H; now right|].
    exists (b :: l'). split; [|now constructor]. cbn [flat_map]. rewrite concat_app_perm, Hb. cbn. now constructor.
Qed.

Lemma group_perm {A K} (eq : forall a b : K, {a = b} + {a <> b}) (f : A -> K) (l : list A) ks : NoDup ks -> (forall x, In x l -> In (f x) ks) ->
  Permutation (concat (map (fun k => filter (fun x => if eq (f x) k then true else false) l) ks)) l.
Proof.
  intros N H. destruct (spread ks (fun k x => if eq (f x) k then [x] else []) Logic.eq l) as (l' & P & F).
  - intros x Hx. exists x. split; [|reflexivity]. specialize (H x Hx). clear Hx. induction ks as [|k ks IH]; [destruct H|]. inversion N; subst. cbn. destruct (eq (f x) k) as [<-|E].
    + cbn. f_equal. clear -H2. induction ks as [|k ks IH]; [reflexivity|]. cbn. destruct (eq (f x) k) as [Y|Y]; [destruct H2; now left|]. apply IH. intros X. apply H2. now right.
    + destruct H as [->|H]; [congruence|]. cbn. now apply IH.
  - assert (l' = l) as -> by (clear -F; induction F; congruence). rewrite <- P. apply Permutation_refl'. f_equal. apply map_ext. intros k. clear. induction l as [|x l IH]; [reflexivity|]. cbn. destruct (eq (f x) k); cbn; now rewrite IH.
Qed.

Lemma NoDup_app_inv {A} (l l' : list A) : NoDup (l ++ l') -> NoDup l /\ NoDup l' /\ forall x, In x l -> ~ In x l'.
Proof.
  induction l as [|x l IH]; cbn; intros H; [split; [constructor|split; [exact H|tauto]]|]. inversion H; subst. destruct (IH H3) as (A1 & A2 & A3). rewrite in_app_iff in H2.
  split; [constructor; tauto|]. split; [exact A2|]. intros y [->|Hy]; [tauto|now apply A3].
Qed.

Lemma var_index_none l u : var_index l u = None <-> ~ In u l.
Proof.
  induction l as [|w l IH]; cbn; [tauto|]. destruct (w =? u) eqn:E; [apply Nat.eqb_eq in E; subst; split; [discriminate|tauto]|]. apply Nat.eqb_neq in E.
  destruct (var_index l u); split; intros X; try discriminate; try reflexivity.
  - exfalso. apply X. right. destruct (in_dec Nat.eq_dec u l) as [Y|Y]; [exact Y|]. destruct IH as [_ IH]. discriminate (IH Y).
  - destruct IH as [IH _]. specialize (IH eq_refl). tauto.
Qed.

Lemma var_index_some l u k : var_index l u = Some k -> nth_error l k = Some u.
Proof.
  revert k. induction l as [|w l IH]; cbn; intros k H; [discriminate|]. destruct (w =? u) eqn:E; [apply Nat.eqb_eq in E; inversion H; subst; reflexivity|].
  destruct (var_index l u); [|discriminate]. inversion H; subst. now apply IH.
Qed.

Lemma remap_none c u : ~ In u (c_nodes c) -> hash_remap c u = None.
Proof. apply var_index_none. Qed.

Lemma only_one {B} (f : converted -> nat -> B) cs u : NoDup (concat (map c_nodes cs)) -> forall c, In c cs -> In u (c_nodes c) ->
  exists k, nth_error (c_nodes c) k = Some u /\ hash_remap c u = Some k /\
  concat (map (fun c => match hash_remap c u with None => [] | Some k => [f c k] end) cs) = [f c k].
Proof.
  induction cs as [|c cs IH]; intros N d Hd Hu; [destruct Hd|]. cbn in N. destruct (NoDup_app_inv _ _ N) as (N1 & N2 & N3).
  destruct Hd as [->|Hd].
  - destruct (var_index_spec (c_nodes d) u Hu) as (k & E & X). exists k. split; [exact X|]. split; [exact E|]. cbn. unfold hash_remap at 1. rewrite E. cbn. f_equal.
    specialize (N3 u Hu). clear -N3. induction cs as [|c cs IH]; [reflexivity|]. cbn in *. rewrite in_app_iff in N3. rewrite remap_none by tauto. cbn. apply IH. tauto.
  - destruct (IH N2 d Hd Hu) as (k & E & X & Y). exists k. split; [exact E|]. split; [exact X|]. cbn. rewrite remap_none; [exact Y|]. intros Z. apply (N3 u Z). rewrite in_concat. exists (c_nodes d). split; [now apply in_map|exact Hu].
Qed.

Lemma filter_all {A} (f : A -> bool) l : (forall x, In x l -> f x = true) -> filter f l = l.
Proof. induction l as [|x l IH]; cbn; intros H; [reflexivity|]. rewrite (H x (or_introl eq_refl)), IH; auto. Qed.

(** Entries that carry the number of the element they come from. *)
Lemma mapM_filter {A X} (f : nat * A -> option (list X)) (tag : X -> nat) l : forall k es, mapM f (combine (seq k (length l)) l) = Some es ->
  (forall i a e x, f (i, a) = Some e -> In x e -> tag x = i) ->
  forall r a, nth_error l r = Some a -> exists e, f (k + r, a) = Some e /\ filter (fun x => tag x =? k + r) (concat es) = e.
Proof.
  induction l as [|b l IH]; intros k es H T r a Hr; [destruct r; discriminate|]. cbn [length seq combine mapM] in H.
  destruct (f (k, b)) as [e0|] eqn:E0; [|discriminate]. destruct (mapM f (combine (seq (S k) (length l)) l)) as [es'|] eqn:E1; [|discriminate]. inversion H; subst es. clear H.
  assert (Later : forall x, In x (concat es') -> S k <= tag x).
  { clear -E1 T. revert E1. generalize (S k). revert es'. induction l as [|c l IH]; intros es' m E x Hx; cbn [length seq combine mapM] in E.
    - inversion E; subst. destruct Hx.
    - destruct (f (m, c)) as [e1|] eqn:F; [|discriminate]. destruct (mapM f (combine (seq (S m) (length l)) l)) as [es1|] eqn:G; [|discriminate]. inversion E; subst. cbn in Hx. apply in_app_iff in Hx as [Hx|Hx].
      + now rewrite (T m c e1 x F Hx).
      + specialize (IH es1 (S m) G x Hx). lia. }
  cbn [concat]. rewrite filter_app. destruct r as [|r].
  - cbn in Hr. inversion Hr; subst b. rewrite Nat.add_0_r. exists e0. split; [exact E0|].
    rewrite filter_all.
    + rewrite <- (app_nil_r e0) at 2. f_equal. clear -Later. induction (concat es') as [|x l IH]; [reflexivity|]. cbn. pose proof (Later x (or_introl eq_refl)). destruct (Nat.eqb_spec (tag x) k); [lia|]. apply IH. intros; apply Later; now right.
    + intros x Hx. apply Nat.eqb_eq. now apply (T k a e0).
  - cbn in Hr. destruct (IH (S k) es' E1 T r a Hr) as (e & E & F). exists e. rewrite Nat.add_succ_r in *. cbn in E, F. split; [exact E|].
    rewrite F. assert (filter (fun x => tag x =? S (k + r)) e0 = []) as ->; [|reflexivity]. clear -E0 T. assert (Q : forall x, In x e0 -> tag x = k) by (intros; now apply (T k b e0)). clear -Q. induction e0 as [|x l IH]; [reflexivity|]. cbn. rewrite (Q x (or_introl eq_refl)). destruct (Nat.eqb_spec k (S (k + r))); [lia|]. apply IH. intros; apply Q; now right.
Qed.

Lemma mapM_tagged_nodup {A X} (f : nat * A -> option (list X)) (tag : X -> nat) l : forall k es, mapM f (combine (seq k (length l)) l) = Some es ->
  (forall i a e x, f (i, a) = Some e -> In x e -> tag x = i) -> (forall i a e, f (i, a) = Some e -> In a l -> NoDup e) ->
  NoDup (concat es) /\ forall x, In x (concat es) -> k <= tag x.
Proof.
  induction l as [|b l IH]; intros k es H T N; cbn [length seq combine mapM] in H; [inversion H; subst; cbn; split; [constructor|tauto]|].
  destruct (f (k, b)) as [e0|] eqn:E0; [|discriminate]. destruct (mapM f (combine (seq (S k) (length l)) l)) as [es'|] eqn:E1; [|discriminate]. inversion H; subst es. clear H.
  destruct (IH (S k) es' E1 T) as (N1 & G1). { intros i a e Hf Ha. apply (N i a e Hf). now right. }
  cbn [concat]. split.
  - apply NoDup_app_intro; [apply (N k b e0 E0); now left|exact N1|]. intros x Hx Hy. pose proof (T k b e0 x E0 Hx). pose proof (G1 x Hy). lia.
  - intros x Hx. apply in_app_iff in Hx as [Hx|Hx]; [now rewrite (T k b e0 x E0 Hx)|]. specialize (G1 x Hx). lia.
Qed.

(** ** Columns *)

Lemma column_index vars v : StronglySorted lt vars -> In v vars -> var_index vars v = Some (column vars v).
Proof.
  induction 1 as [|w vars Hs IH Hf]; intros Hv; [destruct Hv|]. rewrite Forall_forall in Hf. cbn [var_index]. destruct (Nat.eqb_spec w v) as [->|E].
  - f_equal. unfold column. cbn [filter length]. rewrite Nat.ltb_irrefl. symmetry. apply length_zero_iff_nil. clear -Hf. induction vars as [|w vars IH]; [reflexivity|]. cbn [filter].
    pose proof (Hf w (or_introl eq_refl)). destruct (Nat.ltb_spec w v); [lia|]. apply IH. intros; apply Hf; now right.
  - destruct Hv as [Hv|Hv]; [congruence|]. rewrite (IH Hv). unfold column. cbn [filter]. specialize (Hf v Hv). destruct (Nat.ltb_spec w v); [reflexivity|lia].
Qed.

Lemma column_lt vars v w : In v vars -> v < w -> column vars v < column vars w.
Proof.
  intros Hv L. unfold column. assert (A : forall l, length (filter (fun x => x <? v) l) <= length (filter (fun x => x <? w) l)).
  { induction l as [|x l IH]; [reflexivity|]. cbn [filter]. destruct (Nat.ltb_spec x v), (Nat.ltb_spec x w); cbn [length]; lia. }
  induction vars as [|x l IH]; [destruct Hv|]. cbn [filter]. destruct Hv as [->|Hv].
  - rewrite Nat.ltb_irrefl. destruct (Nat.ltb_spec v w); [|lia]. cbn [length]. specialize (A l). lia.
  - specialize (IH Hv). destruct (Nat.ltb_spec x v), (Nat.ltb_spec x w); cbn [length]; lia.
Qed.

Lemma columns_sorted vars s : incl s vars -> StronglySorted lt s -> StronglySorted lt (map (column vars) s).
Proof.
  intros I. induction 1 as [|x s Hs IH Hf]; cbn; constructor.
  - apply IH. intros y Hy. apply I. now right.
  - apply Forall_forall. intros y Hy. apply in_map_iff in Hy as (z & <- & Hz). rewrite Forall_forall in Hf. apply column_lt; [apply I; now left|now apply Hf].
Qed.

Lemma columns_index vars s : StronglySorted lt vars -> incl s vars -> mapM (var_index vars) s = Some (map (column vars) s).
Proof.
  intros Hs Hi. induction s as [|x s IH]; [reflexivity|]. cbn [mapM map]. rewrite column_index by (auto; apply Hi; now left). rewrite IH; [reflexivity|]. intros y Hy. apply Hi. now right.
Qed.

Lemma columns_names vars s : StronglySorted lt vars -> incl s vars -> mapM (nth_error vars) (map (column vars) s) = Some s.
Proof.
  intros Hs Hi. induction s as [|x s IH]; [reflexivity|]. cbn [mapM map]. rewrite (var_index_some vars x) by (apply column_index; auto; apply Hi; now left). rewrite IH; [reflexivity|]. intros y Hy. apply Hi. now right.
Qed.

Lemma columns_inj vars s s' : StronglySorted lt vars -> incl s vars -> incl s' vars -> map (column vars) s = map (column vars) s' -> s = s'.
Proof. intros H I I' E. pose proof (columns_names vars s H I) as A. rewrite E, (columns_names vars s' H I') in A. congruence. Qed.

(** ** Input layers *)

Section Inputs.
Variable domain : nat -> nat.
Variables before after : R -> R.

Lemma set_at_seq i v (f : nat -> R) n : forall k, set_at i v (map f (seq k n)) = map (fun j => if j =? k + i then v else f j) (seq k n).
Proof.
  revert i. induction n as [|n IH]; intros i k; [destruct i; reflexivity|]. cbn [seq map]. destruct i as [|i]; cbn [set_at].
  - rewrite Nat.add_0_r, Nat.eqb_refl. f_equal. apply map_ext_in. intros j Hj. apply in_seq in Hj. destruct (Nat.eqb_spec j k); [lia|reflexivity].
  - destruct (Nat.eqb_spec k (k + S i)); [lia|]. f_equal. rewrite IH. apply map_ext. intros j. now rewrite Nat.add_succ_r.
Qed.

Lemma row_spec n p : NoDup (keys p) -> Forall (fun k => (0 <= k < Z.of_nat n)%Z) (keys p) ->
  probability_row n p = Some (map (fun k => dget p (Z.of_nat k)) (seq 0 n)).
Proof.
  intros N F. unfold probability_row.
  enough (G : forall f, foldM (fun row kv => match state_index n (fst kv) with None => None | Some i => Some (set_at i (snd kv) row) end) p (map f (seq 0 n)) =
    Some (map (fun k => if in_dec Z.eq_dec (Z.of_nat k) (keys p) then dget p (Z.of_nat k) else f k) (seq 0 n))).
  { assert (E : repeat 0%R n = map (fun _ => 0%R) (seq 0 n)). { clear. generalize 0. induction n as [|n IH]; intros k; [reflexivity|]. cbn [repeat seq map]. f_equal. apply IH. }
    rewrite E, G. f_equal. apply map_ext. intros k. destruct (in_dec Z.eq_dec (Z.of_nat k) (keys p)) as [|X]; [reflexivity|]. symmetry. now apply dget_absent. }
  induction p as [|[k q] p IH]; intros f; [reflexivity|]. cbn [keys map fst] in N, F. inversion N; subst. inversion F; subst. cbn [foldM fst snd].
  assert (E : state_index n k = Some (Z.to_nat k)). { unfold state_index. destruct (Z.leb_spec 0 k); [|lia]. destruct (Z.ltb_spec k (Z.of_nat n)); [reflexivity|lia]. }
  rewrite E, set_at_seq, IH by assumption. f_equal. apply map_ext_in. intros j _. rewrite dget_cons. cbn [plus]. change (keys ((k, q) :: p)) with (k :: keys p).
  destruct (in_dec Z.eq_dec (Z.of_nat j) (keys p)) as [X|X]; destruct (in_dec Z.eq_dec (Z.of_nat j) (k :: keys p)) as [Y|Y].
  - destruct (Z.eqb_spec k (Z.of_nat j)) as [->|]; [contradiction|reflexivity].
  - destruct Y. now right.
  - destruct Y as [->|Y]; [|contradiction]. rewrite Nat2Z.id, Nat.eqb_refl, Z.eqb_refl. reflexivity.
  - destruct (Nat.eqb_spec j (Z.to_nat k)) as [->|]; [|reflexivity]. destruct Y. left. lia.
Qed.

Lemma mapM_nth_error {A B} (f : A -> option B) l l' r a : mapM f l = Some l' -> nth_error l r = Some a -> exists b, f a = Some b /\ nth_error l' r = Some b.
Proof.
  revert l' r. induction l as [|x l IH]; intros l' r H Hr; [destruct r; discriminate|]. cbn [mapM] in H. destruct (f x) eqn:E; [|discriminate]. destruct (mapM f l) eqn:F; [|discriminate]. inversion H; subst.
  destruct r as [|r]; cbn in *; [inversion Hr; subst; eauto|]. eapply IH; eauto.
Qed.

Lemma mapM_length {A B} (f : A -> option B) l l' : mapM f l = Some l' -> length l' = length l.
Proof. intros H. apply mapM_Forall2 in H. symmetry. eapply Forall2_length_eq; eauto. Qed.

Lemma create_input_spec t ds i vars : ds <> [] -> create_input domain before after t ds = Some i -> Forall (fun d => dist_type d = t) ds -> Forall (leaf_fits domain) ds ->
  input_nodes i = length ds /\ forall r d, nth_error ds r = Some d -> input_dist (column vars (dvar d)) i r = layer_leaf domain before after vars d.
Proof.
  intros Hne H T F. assert (K : forall r d, nth_error ds r = Some d -> dist_type d = t /\ leaf_fits domain d).
  { intros r d X. apply nth_error_In in X. rewrite Forall_forall in T, F. auto. } clear T F.
  destruct t; cbn [create_input] in H; try discriminate.
  - destruct (mapM _ ds) as [ps|] eqn:M; [|discriminate]. inversion H; subst i. split; [exact (mapM_length _ _ _ M)|]. intros r d Hr. destruct (K r d Hr) as [T F].
    destruct (mapM_nth_error _ _ _ r d M Hr) as (b & Hb & Hn). destruct d; try discriminate T. cbn. rewrite (nth_error_nth ps r (0, 0)%R Hn). unfold open_array in Hb. destruct (lo i), (hi i); cbn in Hb; try discriminate. inversion Hb. reflexivity.
  - destruct (mapM _ ds) as [ps|] eqn:M; [|discriminate]. inversion H; subst i. cbn. rewrite map_length. split; [exact (mapM_length _ _ _ M)|]. intros r d Hr. destruct (K r d Hr) as [T F].
    destruct (mapM_nth_error _ _ _ r d M Hr) as (b & Hb & Hn). destruct d; try discriminate T. cbn. inversion Hb; subst b.
    rewrite (nth_error_nth (map fst ps) r 0%R (map_nth_error fst r ps Hn)), (nth_error_nth (map snd ps) r NaN (map_nth_error snd r ps Hn)). reflexivity.
  - destruct (mapM _ ds) as [ps|] eqn:M; [|discriminate]. inversion H; subst i. cbn. rewrite map_length. split; [exact (mapM_length _ _ _ M)|]. intros r d Hr. destruct (K r d Hr) as [T F].
    destruct (mapM_nth_error _ _ _ r d M Hr) as (b & Hb & Hn). destruct d; try discriminate T. cbn in F |- *. inversion Hb; subst b.
    rewrite (nth_error_nth (map fst ps) r 0%R (map_nth_error fst r ps Hn)), (nth_error_nth _ r 0%R (map_nth_error (fun p : R * R => ln (snd p)) r ps Hn)), (nth_error_nth _ r 0%R (map_nth_error (fun _ => (1 / 100)%R) r ps Hn)). cbn. now rewrite exp_ln.
  - exfalso. destruct ds as [|d ds]; [congruence|destruct (K 0 d eq_refl) as [T F]; destruct d; try discriminate T; exact F].
  - destruct (mapM _ ds) as [ps|] eqn:M; [|discriminate]. match type of H with Some ?x = Some i => assert (Ei : i = x) by congruence end. subst i. cbn [input_nodes]. rewrite map_length. split; [exact (mapM_length _ _ _ M)|]. intros r d Hr. destruct (K r d Hr) as [T F].
    destruct (mapM_nth_error _ _ _ r d M Hr) as (b & Hb & Hn). destruct d; try discriminate T. cbn -[nlog] in F, Hb |- *. destruct F as [[N P] F]. rewrite row_spec in Hb by assumption. inversion Hb; subst b. clear Hb.
    rewrite (nth_error_nth _ r [] (map_nth_error (map (fun q => nlog (Fin q))) r ps Hn)). f_equal. rewrite map_length, map_length, seq_length. unfold softmax. rewrite !map_map.
    assert (W : forall k, wexp (nlog (Fin (dget p (Z.of_nat k)))) = dget p (Z.of_nat k)). { intros k. apply wexp_nlog. apply dget_nonneg. now split. }
    assert (S : Rsum (vals p) = Rsum (map (fun k => wexp (nlog (Fin (dget p (Z.of_nat k))))) (seq 0 (domain v)))).
    { rewrite (vals_sum p (map Z.of_nat (seq 0 (domain v)))).
      - rewrite map_map. f_equal. apply map_ext. intros k. now rewrite W.
      - exact N.
      - apply FinFun.Injective_map_NoDup; [intros a b; apply Nat2Z.inj|apply seq_NoDup].
      - intros k Hk. rewrite Forall_forall in F. specialize (F k Hk). apply in_map_iff. exists (Z.to_nat k). split; [lia|]. apply in_seq. lia. }
    rewrite <- S. clear S. generalize (Rsum (vals p)). intros z. clear -W. generalize 0. induction (domain v) as [|n IHn]; intros k; [reflexivity|]. cbn [seq map combine]. rewrite W. f_equal. apply IHn.
Qed.
End Inputs.

Lemma in_enumerate {A} (l : list A) j a : In (j, a) (enumerate l) <-> nth_error l j = Some a.
Proof.
  unfold enumerate. enough (Q : forall k, In (j, a) (combine (seq k (length l)) l) <-> k <= j /\ nth_error l (j - k) = Some a) by (rewrite Q, Nat.sub_0_r; split; [tauto|intros; split; [lia|auto]]).
  induction l as [|b l IH]; intros k; cbn; [destruct (j - k); split; [tauto|intros [_ X]; discriminate|tauto|intros [_ X]; discriminate]|]. rewrite IH. split.
  - intros [X|[X Y]]; [inversion X; subst; rewrite Nat.sub_diag; auto|]. split; [lia|]. replace (j - k) with (S (j - S k)) by lia. exact Y.
  - intros [X Y]. destruct (Nat.eq_dec k j) as [->|Hd]; [rewrite Nat.sub_diag in Y; cbn in Y; left; congruence|]. right. split; [lia|]. replace (j - k) with (S (j - S k)) in Y by lia. exact Y.
Qed.

Lemma in_enumerate_in {A} (l : list A) j a : In (j, a) (enumerate l) -> In a l.
Proof. intros H. apply in_enumerate in H. now apply nth_error_In in H. Qed.

(** ** One depth *)

Section Depth.
Variable domain : nat -> nat.
Variables before after : R -> R.
Variable g : graph dist.
Variable vars : list nat.
Hypothesis Hvars : StronglySorted lt vars.

Definition fine (u : id) : Prop := exists t, unfolds g u t /\ smooth dist_vars t /\ decomposable dist_vars t /\ all_leaves (leaf_fits domain) t /\ forall x, mentions dist_vars t x -> In x vars.

Lemma fine_scope u t : fine u -> unfolds g u t -> exists s, scope g u = Some s /\ StronglySorted lt s /\ incl s vars /\ forall v, In v s <-> mentions dist_vars t v.
Proof.
  intros (t' & U & Sm & _ & _ & M) U'. pose proof (unfolds_det _ _ _ U _ U'). subst t'. destruct (unit_variables_spec dist_vars g u t U Sm (S (length (g_nodes g)))) as (s & E & Hs & Hm); [pose proof (height_bound _ _ _ U); lia|].
  exists s. split; [exact E|]. split; [exact Hs|]. split; [|exact Hm]. intros v Hv. apply M. now apply Hm.
Qed.

Record good (c : converted) : Prop := {
  gd_some : c_nodes c <> [];
  gd_nodup : NoDup (c_nodes c);
  gd_size : number_of_nodes (c_layer c) = length (c_nodes c);
  gd_scope : exists s, s <> [] /\ StronglySorted lt s /\ incl s vars /\ variables (c_layer c) = map (column vars) s /\ forall u, In u (c_nodes c) -> scope g u = Some s;
  gd_tree : forall k u t, nth_error (c_nodes c) k = Some u -> unfolds g u t -> rearranged (tree (c_layer c) k) (layer_tree domain before after vars t)
}.

Lemma input_good t nodes c s : create_input_layer domain before after g vars t nodes = Some c -> NoDup nodes ->
  (forall u, In u nodes -> fine u /\ scope g u = Some s /\ exists d, node_kind g u = Some (ULeaf d) /\ dist_type d = t) -> good c /\ c_nodes c = nodes.
Proof.
  intros H N K. unfold create_input_layer in H. destruct (dists g nodes) as [ds|] eqn:Ed; [|discriminate]. destruct ds as [|d0 ds0] eqn:Eds; [discriminate|]. rewrite <- Eds in *.
  assert (D : forall k u, nth_error nodes k = Some u -> exists d, nth_error ds k = Some d /\ node_kind g u = Some (ULeaf d)).
  { intros k u Hk. destruct (mapM_nth_error _ _ _ k u Ed Hk) as (d & A & B). exists d. split; [exact B|]. destruct (node_kind g u) as [[]|]; congruence. }
  assert (L : length ds = length nodes) by exact (mapM_length _ _ _ Ed).
  assert (All : forall k d, nth_error ds k = Some d -> dist_type d = t /\ leaf_fits domain d /\ s = [dvar d] /\ In (dvar d) vars).
  { intros k d Hd. assert (Hk : k < length nodes) by (rewrite <- L; apply nth_error_Some; congruence). apply nth_error_Some in Hk. destruct (nth_error nodes k) as [u|] eqn:Hu; [|congruence].
    destruct (D k u Hu) as (d' & A & B). assert (d' = d) by congruence. subst d'. destruct (K u (nth_error_In _ _ Hu)) as ((t' & U & _ & _ & F & M) & Sc & d' & B' & T). assert (d' = d) by congruence. subst d'.
    inversion U as [u' d' X|u' ts X|u' ts X]; subst; try congruence. assert (d' = d) by congruence. subst d'. split; [reflexivity|]. split; [exact F|]. split; [|apply M; cbn; auto].
    unfold scope in Sc. cbn [unit_variables] in Sc. rewrite B in Sc. cbn in Sc. congruence. }
  destruct (All 0 d0) as (_ & _ & S0 & V0); [now rewrite Eds|].
  rewrite (column_index vars (dvar d0) Hvars V0) in H. destruct (create_input domain before after t ds) as [i|] eqn:Ei; [|discriminate]. inversion H; subst c. clear H. cbn [c_layer c_nodes].
  destruct (create_input_spec domain before after t ds i vars) as [Hn Hi]; [rewrite Eds; discriminate|exact Ei| | |].
  { apply Forall_forall. intros d Hd. apply In_nth_error in Hd as [k Hk]. now apply (All k). }
  { apply Forall_forall. intros d Hd. apply In_nth_error in Hd as [k Hk]. now apply (All k). }
  split; [|reflexivity]. constructor; cbn [c_layer c_nodes].
  - intros X. rewrite X, Eds in L. discriminate.
  - exact N.
  - cbn. congruence.
  - exists s. subst s. split; [discriminate|]. split; [repeat constructor|]. split; [intros x [<-|[]]; exact V0|]. split; [reflexivity|]. intros u Hu. now apply K.
  - intros k u t' Hk U. destruct (D k u Hk) as (d & A & B). inversion U as [u' d' X|u' ts X|u' ts X]; subst u'; try congruence. assert (d' = d) by congruence. subst t' d'. cbn.
    rewrite <- (Hi k d A). destruct (All k d A) as (_ & _ & Sd & _). rewrite S0 in Sd. inversion Sd. constructor.
Qed.

(** *** Sum layers *)

Lemma list_eqb_eq a : forall b, list_eqb a b = true -> a = b.
Proof.
  unfold list_eqb. induction a as [|x a IH]; intros [|y b] H; cbn in H; try discriminate; [reflexivity|]. apply andb_true_iff in H as [H1 H2]. apply andb_true_iff in H2 as [H2 H3]. apply Nat.eqb_eq in H2. subst. f_equal. apply IH. now rewrite H1, H3.
Qed.

Lemma list_eqb_refl a : list_eqb a a = true.
Proof. unfold list_eqb. rewrite Nat.eqb_refl. cbn. induction a as [|x a IH]; [reflexivity|]. cbn. now rewrite Nat.eqb_refl. Qed.

Lemma stretched x b : StronglySorted lt b -> b <> [] -> forallb (Nat.eqb x) b = true -> b = [x].
Proof.
  intros S Hb H. destruct b as [|y [|z b]]; [congruence| |]; cbn in H.
  - rewrite andb_true_r in H. apply Nat.eqb_eq in H. now subst.
  - apply andb_true_iff in H as [H1 H2]. apply andb_true_iff in H2 as [H2 _]. apply Nat.eqb_eq in H1, H2. subst. inversion S; subst. inversion H2; subst. lia.
Qed.

Lemma same_vector_spec a b v : StronglySorted lt a -> StronglySorted lt b -> a <> [] -> b <> [] -> same_vector a b = Some v -> v = true <-> a = b.
Proof.
  intros Sa Sb Na Nb H. unfold same_vector in H. destruct (Nat.eqb_spec (length a) (length b)) as [E|E].
  - inversion H; subst v. split; [apply list_eqb_eq|intros ->; apply list_eqb_refl].
  - split; [|intros ->; congruence]. intros ->. destruct a as [|x [|x' a]]; [congruence| |]; [|destruct b as [|y [|y' b]]]; try congruence; cbn [forallb] in H.
    + inversion H as [H']. symmetry. apply stretched; auto.
    + inversion H as [H']. apply stretched; auto.
Qed.

Lemma same_scope_spec vs cs : forall l, StronglySorted lt vs -> vs <> [] -> (forall c, In c cs -> StronglySorted lt (variables (c_layer c)) /\ variables (c_layer c) <> []) ->
  same_scope vs cs = Some l -> (forall c, In c l <-> In c cs /\ variables (c_layer c) = vs) /\ (NoDup (concat (map c_nodes cs)) -> NoDup (concat (map c_nodes l))).
Proof.
  induction cs as [|c cs IH]; intros l Sv Nv K H; cbn [same_scope] in H; [inversion H; split; [cbn; tauto|auto]|].
  destruct (same_vector (variables (c_layer c)) vs) as [b|] eqn:E; [|discriminate]. destruct (same_scope vs cs) as [l'|] eqn:E'; [|discriminate]. inversion H; subst l. clear H.
  destruct (K c (or_introl eq_refl)) as [K1 K2]. pose proof (same_vector_spec _ _ _ K1 Sv K2 Nv E) as Hb. destruct (IH l' Sv Nv) as [IH1 IH2]; [intros; apply K; now right|reflexivity|]. split.
  - intros d. destruct b.
    + cbn. rewrite IH1. destruct Hb as [Hb _]. specialize (Hb eq_refl). split; [intros [<-|X]; tauto|intros [[<-|X] Y]; tauto].
    + cbn. rewrite IH1. destruct Hb as [_ Hb]. split; [tauto|]. intros [[<-|X] Y]; [discriminate (Hb Y)|tauto].
  - cbn. intros N. destruct (NoDup_app_inv _ _ N) as (N1 & N2 & N3). destruct b; [|auto]. cbn. apply NoDup_app_intro; auto. intros x Hx Hy. apply (N3 x Hx). rewrite in_concat in *. destruct Hy as (y & Hy & Hz). exists y. split; [|exact Hz]. apply in_map_iff in Hy as (d & <- & Hd). apply in_map. now apply IH1.
Qed.

Lemma fold_and_In {A} (P : A -> Prop) l x : fold_right and True (map P l) -> In x l -> P x.
Proof. intros H Hx. apply fold_and_Forall in H. rewrite Forall_forall in H. auto. Qed.
Lemma fold_or_In {A} (P : A -> Prop) l x : In x l -> P x -> fold_right or False (map P l).
Proof. intros Hx Px. induction l as [|y l IH]; [destruct Hx|]. cbn. destruct Hx as [->|Hx]; auto. Qed.

Lemma Forall2_in_l {A B} (R : A -> B -> Prop) l l' a : Forall2 R l l' -> In a l -> exists b, In b l' /\ R a b.
Proof. induction 1; intros X; [destruct X|]. destruct X as [->|X]; [eexists; split; [now left|eauto]|]. destruct (IHForall2 X) as (b & ? & ?). exists b. split; [now right|auto]. Qed.

Lemma fine_child u e : fine u -> In e (out_edges g u) -> node_kind g u = Some USum \/ node_kind g u = Some UProd -> fine (e_dst e).
Proof.
  intros (t & U & Sm & De & Le & M) He K. inversion U as [u' d X|u' ts X Hne F|u' ts X F]; subst; [destruct K; congruence| |].
  - destruct (Forall2_in_l _ _ _ e F He) as ([w t] & Ht & _ & Ut). cbn in Ut. exists t. split; [exact Ut|]. destruct Sm as [_ Sm]. cbn in De, Le.
    split; [exact (fold_and_In (fun wt => smooth dist_vars (snd wt)) ts (w, t) Sm Ht)|]. split; [exact (fold_and_In (fun wt => decomposable dist_vars (snd wt)) ts (w, t) De Ht)|]. split; [exact (fold_and_In (fun wt => all_leaves (leaf_fits domain) (snd wt)) ts (w, t) Le Ht)|].
    intros x Hx. apply M. cbn. apply (fold_or_In (fun wt => mentions dist_vars (snd wt) x) ts (w, t) Ht Hx).
  - destruct (Forall2_in_l _ _ _ e F He) as (t & Ht & Ut). exists t. split; [exact Ut|]. destruct De as [_ De]. cbn in Sm, Le.
    split; [exact (fold_and_In _ ts t Sm Ht)|]. split; [exact (fold_and_In _ ts t De Ht)|]. split; [exact (fold_and_In _ ts t Le Ht)|].
    intros x Hx. apply M. cbn. exact (fold_or_In (fun t' => mentions dist_vars t' x) ts t Ht Hx).
Qed.

Lemma sum_child_scope u e s : fine u -> node_kind g u = Some USum -> scope g u = Some s -> In e (out_edges g u) -> scope g (e_dst e) = Some s.
Proof.
  intros Fu K Hs He. pose proof (fine_child u e Fu He (or_introl K)) as Fe. destruct Fu as (t & U & Sm & De & Le & M). assert (Fu : fine u) by (exists t; auto).
  destruct (fine_scope u t Fu U) as (s1 & E1 & S1 & _ & M1). assert (s1 = s) by congruence. subst s1.
  inversion U as [u' d X|u' ts X Hne F|u' ts X F]; subst; try congruence. destruct (Forall2_in_l _ _ _ e F He) as ([w t] & Ht & _ & Ut). cbn in Ut.
  destruct (fine_scope _ t Fe Ut) as (s2 & E2 & S2 & _ & M2). rewrite E2. f_equal. apply sorted_lt_ext; auto. intros x. rewrite M2, M1. destruct Sm as [Sm _]. split; intros Hx.
  - cbn. exact (fold_or_In (fun wt => mentions dist_vars (snd wt) x) ts (w, t) Ht Hx).
  - exact (fold_and_In (fun wt => mentions dist_vars (snd wt) x) ts (w, t) (Sm x Hx) Ht).
Qed.

Lemma combine_map2 {A B C} (f : A -> B) (h : A -> C) l : combine (map f l) (map h l) = map (fun a => (f a, h a)) l.
Proof. induction l; cbn; congruence. Qed.

Lemma map_concat_map {A B C} (f : B -> C) (h : A -> list B) l : map f (concat (map h l)) = concat (map (fun a => map f (h a)) l).
Proof. induction l; cbn; [reflexivity|]. rewrite map_app. congruence. Qed.

Lemma map_flat_map {A B C} (f : B -> C) (h : A -> list B) l : map f (flat_map h l) = flat_map (fun a => map f (h a)) l.
Proof. induction l; cbn; [reflexivity|]. rewrite map_app. congruence. Qed.

Lemma Forall2_map_eq {A B} (f : A -> B) (h : A -> option B) l l' : mapM h l = Some l' -> (forall a b, In a l -> h a = Some b -> b = f a) -> l' = map f l.
Proof.
  revert l'. induction l as [|a l IH]; intros l' H K; cbn [mapM] in H; [now inversion H|]. destruct (h a) eqn:E; [|discriminate]. destruct (mapM h l) eqn:F; [|discriminate]. inversion H; subst. cbn. f_equal; [apply K; auto; now left|]. apply IH; auto. intros; apply K; auto. now right.
Qed.

(** The edges of node [k] of a weight matrix. *)
Lemma matrix_edges nodes c w k u wcs : weight_matrix g nodes c = Some w -> nth_error nodes k = Some u ->
  mapM (fun e => match e_lw e with None => None | Some w => Some (w, e_dst e) end) (out_edges g u) = Some wcs ->
  s_rows w = length nodes /\
  sparse_edges k w = flat_map (fun wc => match hash_remap c (snd wc) with None => [] | Some j => [(j, fst wc)] end) wcs.
Proof.
  intros H Hk Hw. unfold weight_matrix in H. destruct (mapM (sum_entries g c) (enumerate nodes)) as [es|] eqn:E; [|discriminate].
  assert (Hw' : w = mkSparse (length nodes) (number_of_nodes (c_layer c)) (concat es)) by (destruct (concat es); congruence). clear H. subst w. split; [reflexivity|].
  unfold enumerate in E. destruct (mapM_filter (sum_entries g c) (fun e => fst (fst e)) nodes 0 es E) with (r := k) (a := u) as (e & He & Hf); [|exact Hk|].
  - intros i a e x He Hx. unfold sum_entries in He. cbn [fst snd] in He. destruct (mapM _ (out_edges g a)); [|discriminate]. inversion He; subst e. apply in_flat_map in Hx as (wc & _ & Hx). destruct (hash_remap c (snd wc)); [|destruct Hx]. destruct Hx as [<-|[]]. reflexivity.
  - cbn [plus] in He, Hf. unfold sparse_edges. cbn [s_entries]. rewrite Hf. unfold sum_entries in He. cbn [fst snd] in He. rewrite Hw in He. inversion He; subst e. rewrite map_flat_map. apply flat_map_ext. intros wc. destruct (hash_remap c (snd wc)); reflexivity.
Qed.

Lemma sum_good nodes children c s : Forall good children -> NoDup (concat (map c_nodes children)) ->
  create_sum_layer g vars children nodes = Some c -> NoDup nodes ->
  (forall u, In u nodes -> fine u /\ scope g u = Some s /\ node_kind g u = Some USum /\ forall e, In e (out_edges g u) -> In (e_dst e) (concat (map c_nodes children))) ->
  good c /\ c_nodes c = nodes.
Proof.
  intros G N H Nn K. unfold create_sum_layer in H. destruct nodes as [|u0 nodes0] eqn:En; [discriminate|]. rewrite <- En in *.
  assert (H0 : In u0 nodes) by (rewrite En; now left). destruct (K u0 H0) as (F0 & S0 & K0 & C0). rewrite S0 in H.
  assert (Sc : StronglySorted lt s /\ incl s vars). { destruct F0 as (t & U & X). destruct (fine_scope u0 t) as (s' & E & A & B & _); [exists t; auto|exact U|]. assert (s' = s) by congruence. now subst. }
  destruct Sc as [Ss Is]. rewrite (columns_index vars s Hvars Is) in H. destruct (same_scope (map (column vars) s) children) as [filtered|] eqn:Es; [|discriminate].
  destruct filtered as [|f0 fs] eqn:Ef; [discriminate|]. rewrite <- Ef in *. destruct (mapM (weight_matrix g nodes) filtered) as [ws|] eqn:Ew; [|discriminate]. inversion H; subst c. clear H. cbn [c_nodes].
  rewrite Forall_forall in G.
  assert (Hne : s <> []).
  { destruct F0 as (t & U & X). inversion U as [u' d Y|u' ts Y Hne F|u' ts Y F]; subst u' t; try congruence. destruct (out_edges g u0) as [|e es] eqn:Eo; [congruence|].
    assert (Fu : fine u0) by (eexists; split; [exact U|exact X]). pose proof (C0 e (or_introl eq_refl)) as Hc. apply in_concat in Hc as (l & Hl & He). apply in_map_iff in Hl as (c & <- & Hc).
    destruct (gd_scope c (G c Hc)) as (s' & Hs' & _ & _ & _ & Hu). specialize (Hu _ He). rewrite (sum_child_scope u0 e s Fu K0 S0) in Hu by (rewrite Eo; now left). congruence. }
  assert (Hcols : map (column vars) s <> []) by (destruct s; [congruence|discriminate]).
  destruct (same_scope_spec (map (column vars) s) children filtered) as [Hin Hnd]; [now apply columns_sorted|exact Hcols| |exact Es|].
  { intros c Hc. destruct (gd_scope c (G c Hc)) as (s' & Hs' & Hst & Hi & -> & _). split; [now apply columns_sorted|]. destruct s'; [congruence|discriminate]. }
  specialize (Hnd N).
  assert (Hrows : forall w, In w ws -> s_rows w = length nodes).
  { intros w Hw. apply mapM_Forall2 in Ew. clear -Ew Hw. induction Ew as [|c w' cs ws E F IH]; [destruct Hw|]. destruct Hw as [->|Hw]; [|now apply IH]. unfold weight_matrix in E. destruct (mapM _ (enumerate nodes)); [|discriminate]. destruct (concat l); [discriminate|]. inversion E. reflexivity. }
  assert (Hws : exists w ws', ws = w :: ws'). { rewrite Ef in Ew. cbn [mapM] in Ew. destruct (weight_matrix g nodes f0); [|discriminate]. destruct (mapM _ fs); [|discriminate]. inversion Ew. eauto. }
  split; [|reflexivity]. constructor; cbn [c_layer c_nodes].
  - rewrite En. discriminate.
  - exact Nn.
  - destruct Hws as (w & ws' & E). rewrite E. cbn. apply Hrows. rewrite E. now left.
  - exists s. split; [exact Hne|]. split; [exact Ss|]. split; [exact Is|]. split; [|intros u Hu; now apply K]. rewrite Ef. cbn. apply Hin. rewrite Ef. now left.
  - intros k u t Hk U. pose proof (nth_error_In _ _ Hk) as Hu. destruct (K u Hu) as (Fu & Su & Ku & Cu).
    inversion U as [u' d Y|u' ts Y Hno F|u' ts Y F]; subst u' t; try congruence.
    assert (Hwcs : exists wcs, mapM (fun e => match e_lw e with None => None | Some w => Some (w, e_dst e) end) (out_edges g u) = Some wcs /\
      Forall2 (fun wc wt => fst wc = fst wt /\ unfolds g (snd wc) (snd wt)) wcs ts /\ forall wc, In wc wcs -> exists e, In e (out_edges g u) /\ e_dst e = snd wc).
    { clear -F. induction F as [|e wt es ts [A B] F IH]; [exists []; cbn; repeat split; [constructor|tauto]|]. destruct IH as (wcs & E & X & Z). exists ((fst wt, e_dst e) :: wcs). cbn [mapM]. rewrite A, E. split; [reflexivity|]. split; [constructor; auto|].
      intros wc [<-|Hwc]; [exists e; cbn; auto|]. destruct (Z wc Hwc) as (e' & ? & ?). exists e'. split; [now right|auto]. }
    destruct Hwcs as (wcs & Ewcs & Fwcs & Inwcs).
    assert (Hparts : map (sparse_edges k) ws = map (fun c => flat_map (fun wc => match hash_remap c (snd wc) with None => [] | Some j => [(j, fst wc)] end) wcs) filtered).
    { clear -Ew Hk Ewcs. apply mapM_Forall2 in Ew. induction Ew as [|c w cs ws E F' IH]; [reflexivity|]. cbn [map]. f_equal; [|exact IH]. eapply matrix_edges; eauto. }
    assert (Hwt : weighted (map (sparse_edges k) ws) (map (fun c r' => tree c r') (map c_layer filtered)) =
      concat (map (fun c => flat_map (fun wc => match hash_remap c (snd wc) with None => [] | Some j => [(fst wc, tree (c_layer c) j)] end) wcs) filtered)).
    { unfold weighted. rewrite Hparts, map_map, combine_map2, map_map. f_equal. apply map_ext. intros c. cbn [fst snd]. rewrite map_flat_map. apply flat_map_ext. intros wc. destruct (hash_remap c (snd wc)); reflexivity. }
    destruct (spread filtered (fun c wc => match hash_remap c (snd wc) with None => [] | Some j => [(fst wc, tree (c_layer c) j)] end)
      (fun b wc => fst b = fst wc /\ forall t, unfolds g (snd wc) t -> rearranged (snd b) (layer_tree domain before after vars t)) wcs) as (l' & P & R').
    { intros wc Hwc. destruct (Inwcs wc Hwc) as (e & He & Ed). pose proof (Cu e He) as Hc. apply in_concat in Hc as (l & Hl & Hd). apply in_map_iff in Hl as (c & <- & Hc).
      assert (Hcf : In c filtered). { apply Hin. split; [exact Hc|]. destruct (gd_scope c (G c Hc)) as (s' & _ & _ & _ & -> & Q). specialize (Q _ Hd). rewrite (sum_child_scope u e s Fu Ku Su He) in Q. congruence. }
      rewrite Ed in Hd. destruct (only_one (fun c j => (fst wc, tree (c_layer c) j)) filtered (snd wc) Hnd c Hcf Hd) as (j & Hj & _ & E). rewrite E. eexists. split; [reflexivity|]. cbn [fst snd]. split; [reflexivity|]. intros t Ht. now apply (gd_tree c (G c Hc) j (snd wc)). }
    cbn [tree]. unfold sum_tree. rewrite Hwt. cbn [layer_tree].
    assert (Tot : total_weight (map (sparse_edges k) ws) = Rsum (map (fun wt => wexp (fst wt)) ts)).
    { unfold total_weight. rewrite Hparts. transitivity (Rsum (map (fun b => wexp (fst b)) (concat (map (fun c => flat_map (fun wc => match hash_remap c (snd wc) with None => [] | Some j => [(fst wc, tree (c_layer c) j)] end) wcs) filtered)))).
      - f_equal. rewrite !map_concat_map. f_equal. apply map_ext. intros c. rewrite !map_flat_map. apply flat_map_ext. intros wc. destruct (hash_remap c (snd wc)); reflexivity.
      - rewrite (Rsum_perm _ _ (Permutation_map _ P)). f_equal. clear -R' Fwcs. revert ts Fwcs. induction R' as [|b wc l' wcs [A _] R' IH]; intros ts F; inversion F; subst; [reflexivity|]. cbn. rewrite A. destruct H1 as [-> _]. f_equal. now apply IH. }
    rewrite Tot. eapply re_sum; [apply Permutation_map, P|]. clear -R' Fwcs. generalize (Rsum (map (fun wt : num * pc dist => wexp (fst wt)) ts)). intros z.
    revert ts Fwcs. induction R' as [|b wc l' wcs [A B] R' IH]; intros ts F; inversion F; subst; [constructor|]. cbn [map]. constructor; [|now apply IH]. cbn [fst snd]. destruct H1 as [E1 E2]. split; [congruence|now apply B].
Qed.

(** *** Product layers *)

Lemma insert_perm e l : Permutation (insert_entry e l) (e :: l).
Proof. induction l as [|x l IH]; cbn; [auto|]. destruct (key_le (fst e) (fst x)); [auto|]. rewrite IH. constructor. Qed.
Lemma sort_perm l : Permutation (sort_entries l) l.
Proof. induction l as [|x l IH]; cbn; [auto|]. rewrite insert_perm. now constructor. Qed.
Lemma sum_duplicates_id l : NoDup (map fst l) -> sum_duplicates l = l.
Proof.
  induction l as [|[k v] l IH]; cbn; intros H; [reflexivity|]. inversion H; subst. rewrite IH by assumption. destruct l as [|[k' v'] l]; [reflexivity|].
  destruct (Nat.eqb_spec (fst k) (fst k')) as [E1|], (Nat.eqb_spec (snd k) (snd k')) as [E2|]; cbn; try reflexivity. destruct H2. left. cbn. destruct k, k'; cbn in *; congruence.
Qed.
Lemma edges_perm l : NoDup (map fst l) -> Permutation (sum_duplicates (sort_entries l)) l.
Proof. intros H. rewrite sum_duplicates_id; [apply sort_perm|]. eapply Permutation_NoDup; [apply Permutation_map, Permutation_sym, sort_perm|exact H]. Qed.

Definition to_layer (j r : nat) (c : converted) (s : id) : list (nat * nat * nat) := match hash_remap c s with None => [] | Some k => [(j, r, k)] end.

Lemma product_entries_spec r u j c e : good c -> (forall s, In s (subcircuits g u) -> exists vs, scope g s = Some vs) -> product_entries g vars (r, u) (j, c) = Some e -> e = flat_map (to_layer j r c) (subcircuits g u).
Proof.
  intros G Hs H. unfold product_entries in H. cbn [fst snd] in H. destruct (gd_scope c G) as (sc & Hne & Ss & Is & Hv & Hc). rewrite Hv, (columns_names vars sc Hvars Is) in H.
  destruct (mapM _ (subcircuits g u)) as [es|] eqn:E; [|discriminate]. inversion H; subst e. clear H. rewrite (Forall2_map_eq (to_layer j r c) _ _ _ E); [now rewrite flat_map_concat_map|].
  intros s b Hin Hb. destruct (Hs s Hin) as (vs & Evs). rewrite Evs in Hb. rewrite sset_of_sorted_id in Hb by exact Ss. unfold to_layer. destruct (scope_eq sc vs) as [<-|Hd].
  - destruct (hash_remap c s); congruence.
  - rewrite remap_none; [congruence|]. intros X. rewrite (Hc s X) in Evs. congruence.
Qed.

Lemma product_unique r u j c : good c -> fine u -> node_kind g u = Some UProd -> length (flat_map (to_layer j r c) (subcircuits g u)) <= 1.
Proof.
  intros G (t & U & Sm & De & Le & M) K. destruct (gd_scope c G) as (sc & Hne & Ss & Is & Hv & Hc). destruct sc as [|v sc]; [congruence|].
  assert (Hmt : forall s t, In s (c_nodes c) -> fine s -> unfolds g s t -> mentions dist_vars t v). { intros s t' Hs Fs Us. destruct (fine_scope s t' Fs Us) as (s' & E & _ & _ & Q). rewrite (Hc s Hs) in E. apply Q. inversion E. now left. }
  assert (Fc : forall e, In e (out_edges g u) -> fine (e_dst e)). { intros e He. eapply fine_child; eauto. exists t. auto. }
  inversion U as [u' d Y|u' ts Y Hno F|u' ts Y F]; subst u' t; try congruence. destruct De as [De _]. clear -F De Hmt Fc. unfold subcircuits. induction F as [|e t es ts Ut F IH]; [cbn; lia|]. cbn [map flat_map] in *.
  destruct De as [D1 D2]. rewrite app_length. assert (IH' : length (flat_map (to_layer j r c) (map e_dst es)) <= 1) by (apply IH; auto using in_cons). clear IH. unfold to_layer at 1. destruct (hash_remap c (e_dst e)) as [k|] eqn:Ek; [|exact IH'].
  assert (Q : flat_map (to_layer j r c) (map e_dst es) = []); [|rewrite Q; cbn; lia].
  assert (Mv : mentions dist_vars t v). { apply (Hmt (e_dst e)); [|apply Fc; now left|exact Ut]. unfold hash_remap in Ek. apply var_index_some in Ek. now apply nth_error_In in Ek. }
  assert (Fc' : forall e, In e es -> fine (e_dst e)) by (intros; apply Fc; now right).
  clear -F D1 Mv Hmt Fc'. induction F as [|e' t' es ts Ut F IH]; [reflexivity|]. cbn [map flat_map] in *. destruct D1 as [D1 D2]. rewrite IH by auto using in_cons. unfold to_layer. destruct (hash_remap c (e_dst e')) as [k|] eqn:Ek; [|reflexivity].
  exfalso. apply (D1 v). split; [exact Mv|]. apply (Hmt (e_dst e')); [|apply Fc'; now left|exact Ut]. unfold hash_remap in Ek. apply var_index_some in Ek. now apply nth_error_In in Ek.
Qed.

Lemma mapM_some_map {A B C} (f : A -> option B) (h : B -> C) l es : mapM f l = Some es -> mapM (fun a => match f a with None => None | Some b => Some (h b) end) l = Some (map h es).
Proof. revert es. induction l as [|a l IH]; intros es H; cbn [mapM] in *; [now inversion H|]. destruct (f a); [|discriminate]. destruct (mapM f l); [|discriminate]. rewrite (IH _ eq_refl). now inversion H. Qed.

Lemma enumerate_map {A B} (f : A -> B) l : enumerate (map f l) = map (fun ja => (fst ja, f (snd ja))) (enumerate l).
Proof. unfold enumerate. rewrite map_length. generalize 0. induction l as [|a l IH]; intros k; [reflexivity|]. cbn. now rewrite IH. Qed.

Lemma map_snd_enumerate {A B} (f : A -> B) l : map (fun ja => f (snd ja)) (enumerate l) = map f l.
Proof. unfold enumerate. generalize 0. induction l as [|a l IH]; intros k; [reflexivity|]. cbn. now rewrite IH. Qed.

Lemma filter_andb {A} (p q : A -> bool) l : filter (fun x => p x && q x) l = filter p (filter q l).
Proof. induction l as [|x l IH]; [reflexivity|]. cbn. destruct (q x) eqn:Q; cbn; destruct (p x); cbn; rewrite IH; reflexivity. Qed.

Lemma filter_perm {A} (p : A -> bool) l l' : Permutation l l' -> Permutation (filter p l) (filter p l').
Proof. induction 1; cbn; auto; repeat (match goal with |- context [p ?x] => destruct (p x) end); auto. - constructor. - etransitivity; eauto. Qed.

Lemma concat_perm_ext {A B} (f h : A -> list B) l : (forall a, In a l -> Permutation (f a) (h a)) -> Permutation (concat (map f l)) (concat (map h l)).
Proof. induction l as [|a l IH]; intros H; cbn; [constructor|]. apply Permutation_app; [apply H; now left|apply IH; intros; apply H; now right]. Qed.

Lemma product_good nodes children c s : Forall good children -> NoDup (concat (map c_nodes children)) ->
  create_product_layer g vars children nodes = Some c -> NoDup nodes ->
  (forall u, In u nodes -> fine u /\ scope g u = Some s /\ node_kind g u = Some UProd /\ forall e, In e (out_edges g u) -> In (e_dst e) (concat (map c_nodes children))) ->
  (forall d v sv, In d children -> In v (c_nodes d) -> scope g v = Some sv -> incl sv s) ->
  good c /\ c_nodes c = nodes.
Proof.
  intros G N H Nn K W. unfold create_product_layer, all_product_entries in H. destruct (mapM _ (enumerate nodes)) as [es|] eqn:E; [|discriminate].
  set (entries := concat (map (@concat _) es)) in *. destruct entries as [|x0 xs0] eqn:Ex; [discriminate|]. rewrite <- Ex in *. inversion H; subst c. clear H. cbn [c_nodes]. rewrite Forall_forall in G.
  pose proof (mapM_some_map _ (@concat _) _ _ E) as E1. cbv beta in E1. unfold enumerate at 2 in E1.
  assert (Sub : forall u, In u nodes -> forall x, In x (subcircuits g u) -> fine x /\ exists vs, scope g x = Some vs).
  { intros u Hu x Hx. destruct (K u Hu) as (Fu & _ & Ku & _). apply in_map_iff in Hx as (e & <- & He). pose proof (fine_child u e Fu He (or_intror Ku)) as Fe. split; [exact Fe|]. destruct Fe as (t & U & X). destruct (fine_scope (e_dst e) t) as (s' & A & _); [exists t; auto|exact U|eauto]. }
  assert (Tag : forall r u j d e x, product_entries g vars (r, u) (j, d) = Some e -> In x e -> fst (fst x) = j /\ snd (fst x) = r).
  { intros r u j d e x He Hx. unfold product_entries in He. cbn [fst snd] in He. destruct (mapM (nth_error vars) _); [|discriminate]. destruct (mapM _ (subcircuits g u)) as [l'|] eqn:M; [|discriminate]. inversion He; subst e. apply in_concat in Hx as (y & Hy & Hx).
    apply mapM_Forall2 in M. clear -M Hy Hx. induction M as [|a b la lb Q F IH]; [destruct Hy|]. destruct Hy as [->|Hy]; [|auto]. destruct (scope g a); [|discriminate]. destruct (scope_eq _ _); [|inversion Q; subst; destruct Hx]. destruct (hash_remap d a); [|discriminate]. inversion Q; subst. destruct Hx as [<-|[]]. auto. }
  assert (Row : forall r u e, nth_error nodes r = Some u -> mapM (product_entries g vars (r, u)) (enumerate children) = Some e ->
    e = map (fun jd => flat_map (to_layer (fst jd) r (snd jd)) (subcircuits g u)) (enumerate children)).
  { intros r u e Hr He. apply (Forall2_map_eq _ _ _ _ He). intros [j d] b Hjd Hb. cbn [fst snd]. pose proof (nth_error_In _ _ Hr) as Hu. apply product_entries_spec; auto; [apply G; now apply in_enumerate_in in Hjd|]. intros x Hx. now apply (Sub u Hu). }
  assert (Hrow : forall r u, nth_error nodes r = Some u -> filter (fun x => snd (fst x) =? r) entries = concat (map (fun jd => flat_map (to_layer (fst jd) r (snd jd)) (subcircuits g u)) (enumerate children))).
  { intros r u Hr. destruct (mapM_filter _ (fun x => snd (fst x)) nodes 0 _ E1) with (r := r) (a := u) as (e & He & Hf); [|exact Hr|].
    - intros i a e x He Hx. destruct (mapM _ (enumerate children)) as [e'|] eqn:M; [|discriminate]. inversion He; subst e. apply in_concat in Hx as (y & Hy & Hx). apply mapM_Forall2 in M. clear -M Hy Hx Tag. unfold enumerate in M. revert M. generalize (combine (seq 0 (length children)) children). intros l M.
      induction M as [|[j d] b la lb Q F IH]; [destruct Hy|]. destruct Hy as [->|Hy]; [|auto]. eapply Tag; eauto.
    - cbn [plus] in He, Hf. destruct (mapM (product_entries g vars (r, u)) (enumerate children)) as [e'|] eqn:M; [|discriminate]. assert (e = concat e') by congruence. unfold entries. rewrite Hf, H. f_equal. now apply Row. }
  assert (Hcell : forall r u j d, nth_error nodes r = Some u -> nth_error children j = Some d -> filter (fun x => (fst (fst x) =? j) && (snd (fst x) =? r)) entries = flat_map (to_layer j r d) (subcircuits g u)).
  { intros r u j d Hr Hj. rewrite filter_andb, (Hrow r u Hr). clear -Hj. unfold enumerate. enough (Q : forall k, nth_error children j = Some d -> filter (fun x => fst (fst x) =? k + j) (concat (map (fun jd => flat_map (to_layer (fst jd) r (snd jd)) (subcircuits g u)) (combine (seq k (length children)) children))) = flat_map (to_layer (k + j) r d) (subcircuits g u)) by exact (Q 0 Hj).
    intros k _. destruct (mapM_filter (fun jd => Some (flat_map (to_layer (fst jd) r (snd jd)) (subcircuits g u))) (fun x => fst (fst x)) children k (map (fun jd => flat_map (to_layer (fst jd) r (snd jd)) (subcircuits g u)) (combine (seq k (length children)) children))) with (r := j) (a := d) as (e & A & B).
    - clear. generalize (combine (seq k (length children)) children). intros l. induction l as [|a l IH]; [reflexivity|]. cbn [mapM map]. now rewrite IH.
    - intros i a e x He Hx. inversion He; subst e. apply in_flat_map in Hx as (y & _ & Hx). unfold to_layer in Hx. cbn [fst snd] in Hx. destruct (hash_remap a y); [|destruct Hx]. destruct Hx as [<-|[]]. reflexivity.
    - exact Hj.
    - rewrite B. cbn [fst snd] in A. congruence. }
  assert (Hkeys : NoDup (map fst entries)).
  { unfold entries. rewrite concat_map, map_map.
    pose proof (mapM_some_map _ (map (@fst (nat * nat) nat)) _ _ E1) as E2. cbv beta in E2. rewrite map_map in E2.
    refine (proj1 (mapM_tagged_nodup _ (@snd nat nat) nodes 0 _ E2 _ _)).
    - intros i a e x He Hx. destruct (mapM _ (enumerate children)) as [e'|] eqn:M; [|discriminate]. inversion He; subst e. apply in_map_iff in Hx as (y & <- & Hx). apply in_concat in Hx as (z & Hz & Hx). apply mapM_Forall2 in M. clear -M Hz Hx Tag. revert M. generalize (enumerate children). intros l M.
      induction M as [|[j d] b la lb Q F IH]; [destruct Hz|]. destruct Hz as [->|Hz]; [|auto]. eapply Tag; eauto.
    - intros i a e He Ha. destruct (K a Ha) as (Fa & _ & Ka & _). destruct (mapM _ (enumerate children)) as [e'|] eqn:M; [|discriminate]. inversion He; subst e. clear He.
      pose proof (mapM_some_map _ (map (@fst (nat * nat) nat)) _ _ M) as M2. cbv beta in M2. rewrite concat_map. unfold enumerate in M2. 
      refine (proj1 (mapM_tagged_nodup _ (@fst nat nat) children 0 _ M2 _ _)).
      + intros j d e x He Hx. destruct (product_entries g vars (i, a) (j, d)) as [e0|] eqn:P; [|discriminate]. inversion He; subst e. apply in_map_iff in Hx as (y & <- & Hx). eapply Tag; eauto.
      + intros j d e He Hd. destruct (product_entries g vars (i, a) (j, d)) as [e0|] eqn:P; [|discriminate]. inversion He; subst e. apply product_entries_spec in P; [|now apply G|intros x Hx; now apply (Sub a Ha)]. subst e0.
        pose proof (product_unique i a j d (G d Hd) Fa Ka) as L. destruct (flat_map _ _) as [|x [|y l]]; cbn in *; [constructor|repeat constructor; auto|lia]. }
  assert (Hnodes : nodes <> []). { intros ->. cbn in E. inversion E; subst es. unfold entries in Ex. cbn in Ex. discriminate. }
  assert (Hsc : s <> [] /\ StronglySorted lt s /\ incl s vars).
  { destruct nodes as [|u0 nodes0] eqn:En; [congruence|]. rewrite <- En in *. assert (Hu0 : In u0 nodes) by (rewrite En; now left). destruct (K u0 Hu0) as ((t & U & X) & S0 & _). destruct (fine_scope u0 t) as (s' & A & B & C & _); [exists t; auto|exact U|]. assert (s' = s) by congruence. subst s'. split; [|auto].
    assert (Hx0 : In x0 entries) by (rewrite Ex; now left). assert (Hr : snd (fst x0) < length nodes).
    { unfold entries in Hx0. clear -Hx0 E1 Tag. apply in_concat in Hx0 as (y & Hy & Hx). apply mapM_Forall2 in E1. enough (Q : forall k, Forall2 (fun a b => match mapM (product_entries g vars a) (enumerate children) with Some b0 => Some (concat b0) | None => None end = Some b) (combine (seq k (length nodes)) nodes) (map (@concat _) es) -> snd (fst x0) < k + length nodes) by exact (Q 0 E1).
      clear E1. intros k M. revert Hy. generalize dependent k. generalize (map (@concat _) es). induction nodes as [|u nodes IH]; intros ll k M Hy; cbn [length seq combine] in M; inversion M as [|? ? ? ? Q F]; subst; [destruct Hy|].
      destruct Hy as [->|Hy]; [|specialize (IH _ (S k) F Hy); cbn; lia]. destruct (mapM _ (enumerate children)) as [e'|] eqn:Mm; [|discriminate]. inversion Q; subst y. apply in_concat in Hx as (z & Hz & Hx). apply mapM_Forall2 in Mm. clear -Mm Hz Hx Tag. revert Mm. generalize (enumerate children). intros l M.
      assert (snd (fst x0) = k); [|cbn; lia]. induction M as [|[j d] b la lb Q F IH]; [destruct Hz|]. destruct Hz as [->|Hz]; [|auto]. eapply Tag; eauto. }
    apply nth_error_Some in Hr. destruct (nth_error nodes (snd (fst x0))) as [u|] eqn:Hu; [|congruence]. assert (Hx1 : In x0 (filter (fun x => snd (fst x) =? snd (fst x0)) entries)) by (apply filter_In; split; [exact Hx0|apply Nat.eqb_refl]).
    rewrite (Hrow _ u Hu) in Hx1. apply in_concat in Hx1 as (y & Hy & Hx1). apply in_map_iff in Hy as ([j d] & <- & Hjd). cbn [fst snd] in Hx1. apply in_flat_map in Hx1 as (z & Hz & Hx1). unfold to_layer in Hx1. destruct (hash_remap d z) as [k|] eqn:Hk; [|destruct Hx1].
    apply var_index_some in Hk. apply nth_error_In in Hk. apply in_enumerate_in in Hjd. destruct (gd_scope d (G d Hjd)) as (sd & Hsd & _ & _ & _ & Q). specialize (W d z sd Hjd Hk (Q z Hk)). destruct sd as [|v sd]; [congruence|]. intros ->. apply (W v). now left. }
  destruct Hsc as (Hne & Ss & Is). split; [|reflexivity]. constructor; cbn [c_layer c_nodes].
  - exact Hnodes.
  - exact Nn.
  - reflexivity.
  - exists s. split; [exact Hne|]. split; [exact Ss|]. split; [exact Is|]. split; [|intros u Hu; now apply K]. cbn [variables]. apply sorted_lt_ext; [apply sset_of_sorted|now apply columns_sorted|]. intros x. rewrite sset_of_In, in_concat. split.
    + intros (l & Hl & Hx). rewrite map_map in Hl. apply in_map_iff in Hl as (d & <- & Hd). pose proof (G d Hd) as Gd. destruct (gd_scope d Gd) as (sd & _ & _ & _ & Ed & Q). rewrite Ed in Hx. apply in_map_iff in Hx as (v & <- & Hv). apply in_map.
      destruct (c_nodes d) as [|z zs] eqn:Ez; [destruct (gd_some d Gd Ez)|]. assert (Hz : In z (c_nodes d)) by (rewrite Ez; now left). exact (W d z sd Hd Hz (Q z (or_introl eq_refl)) v Hv).
    + intros Hx. apply in_map_iff in Hx as (v & <- & Hv). destruct nodes as [|u0 nodes0] eqn:En; [congruence|]. rewrite <- En in *. assert (Hu0 : In u0 nodes) by (rewrite En; now left). destruct (K u0 Hu0) as (Fu & S0 & K0 & C0). pose proof Fu as (t & U & X). destruct (fine_scope u0 t Fu U) as (s' & A & _ & _ & Q). assert (s' = s) by congruence. subst s'. apply Q in Hv.
      inversion U as [u' d Y|u' ts Y Hno F|u' ts Y F]; subst u' t; try congruence. cbn in Hv. assert (exists t, In t ts /\ mentions dist_vars t v) as (t & Ht & Hm). { clear -Hv. induction ts as [|t ts IH]; [destruct Hv|]. destruct Hv as [Hv|Hv]; [exists t; cbn; auto|]. destruct (IH Hv) as (t' & ? & ?). exists t'. cbn. auto. }
      assert (exists e, In e (out_edges g u0) /\ unfolds g (e_dst e) t) as (e & He & Ue). { clear -F Ht. induction F as [|e t' es ts Q F IH]; [destruct Ht|]. destruct Ht as [->|Ht]; [exists e; cbn; auto|]. destruct (IH Ht) as (e' & ? & ?). exists e'. cbn. auto. }
      pose proof (fine_child u0 e Fu He (or_intror K0)) as Fe. destruct (fine_scope (e_dst e) t Fe Ue) as (se & Ase & _ & _ & Qe). pose proof (C0 e He) as Hc. apply in_concat in Hc as (l & Hl & Hd). apply in_map_iff in Hl as (d & <- & Hdc).
      destruct (gd_scope d (G d Hdc)) as (sd & _ & _ & _ & Ed & Qd). rewrite (Qd _ Hd) in Ase. inversion Ase; subst se. exists (variables (c_layer d)). split; [rewrite map_map; now apply (in_map (fun x => variables (c_layer x)))|]. rewrite Ed. apply in_map. now apply Qe.
  - intros k u t Hk U. pose proof (nth_error_In _ _ Hk) as Hu. destruct (K u Hu) as (Fu & Su & Ku & Cu). inversion U as [u' d Y|u' ts Y Hno F|u' ts Y F]; subst u' t; try congruence.
    cbn [tree]. unfold prod_tree. cbn [layer_tree]. set (edges := mkSparse (length children) (length nodes) (sum_duplicates (sort_entries entries))).
    assert (P1 : Permutation (concat (map (fun kt => map (snd kt) (prod_edges edges k (fst kt))) (combine (seq 0 (length (map (fun c r' => tree c r') (map c_layer children)))) (map (fun c r' => tree c r') (map c_layer children)))))
      (concat (map (fun d => flat_map (fun x => match hash_remap d x with None => [] | Some j => [tree (c_layer d) j] end) (subcircuits g u)) children))).
    { rewrite map_map. fold (enumerate (map (fun x r' => tree (c_layer x) r') children)). rewrite enumerate_map, map_map. cbn [fst snd].
      rewrite <- (map_snd_enumerate (fun d => flat_map (fun x => match hash_remap d x with None => [] | Some j => [tree (c_layer d) j] end) (subcircuits g u)) children).
      apply concat_perm_ext. intros [j d] Hjd. cbn [fst snd]. apply in_enumerate in Hjd. transitivity (map (fun r' => tree (c_layer d) r') (map snd (flat_map (to_layer j k d) (subcircuits g u)))).
      - apply Permutation_map. unfold prod_edges. apply Permutation_map. rewrite <- (Hcell k u j d Hk Hjd). apply filter_perm. apply edges_perm. exact Hkeys.
      - rewrite !map_flat_map. apply Permutation_refl'. apply flat_map_ext. intros x. unfold to_layer. destruct (hash_remap d x); reflexivity. }
    destruct (spread children (fun d x => match hash_remap d x with None => [] | Some j => [tree (c_layer d) j] end)
      (fun b x => forall t, unfolds g x t -> rearranged b (layer_tree domain before after vars t)) (subcircuits g u)) as (l' & P2 & R').
    { intros x Hx. apply in_map_iff in Hx as (e & <- & He). pose proof (Cu e He) as Hc. apply in_concat in Hc as (l & Hl & Hd). apply in_map_iff in Hl as (d & <- & Hdc).
      destruct (only_one (fun c j => tree (c_layer c) j) children (e_dst e) N d Hdc Hd) as (j & Hj & _ & Eq). rewrite Eq. eexists. split; [reflexivity|]. intros t Ht. now apply (gd_tree d (G d Hdc) j (e_dst e)). }
    eapply re_prod; [rewrite P1; exact P2|]. clear -F R'. unfold subcircuits in R'. revert l' R'. induction F as [|e t es ts Ut F IH]; intros l' R'; inversion R'; subst; [constructor|]. cbn [map]. constructor; [now apply H2|now apply IH].
Qed.

(** What the loop over the depths needs to know about the units of one depth. *)
Record ready (nodes : list id) (children : list converted) : Prop := {
  rd_good : Forall good children;
  rd_nodup : NoDup (concat (map c_nodes children));
  rd_fine : forall u, In u nodes -> fine u;
  rd_below : forall u e, In u nodes -> In e (out_edges g u) -> In (e_dst e) (concat (map c_nodes children));
  rd_wide : forall u s d v sv, In u nodes -> node_kind g u = Some UProd -> scope g u = Some s -> In d children -> In v (c_nodes d) -> scope g v = Some sv -> incl sv s
}.

Definition has_type (t : utype) (u : id) : Prop := exists k, node_kind g u = Some k /\ unit_type k = t.

Lemma layer_good t nodes children c s : ready nodes children -> create_layer domain before after g vars t children nodes = Some c -> NoDup nodes ->
  (forall u, In u nodes -> has_type t u /\ scope g u = Some s) -> good c /\ c_nodes c = nodes.
Proof.
  intros [G N Fi B W] H Nn K.
  assert (L : forall u, In u nodes -> t <> TSum -> t <> TProd -> exists d, node_kind g u = Some (ULeaf d) /\ dist_type d = t).
  { intros u Hu A1 A2. destruct (K u Hu) as [(k & Hk & T) _]. destruct k as [d| |]; cbn in T; [eauto|congruence|congruence]. }
  assert (In1 : forall t', create_input_layer domain before after g vars t' nodes = Some c -> t = t' -> t <> TSum -> t <> TProd -> good c /\ c_nodes c = nodes).
  { intros t' H' <- A1 A2. apply (input_good t nodes c s H' Nn). intros u Hu. split; [auto|]. split; [now apply K|]. now apply L. }
  destruct t; cbn [create_layer] in H; try (apply (In1 _ H); congruence).
  - apply (sum_good nodes children c s G N H Nn). intros u Hu. split; [auto|]. split; [now apply K|]. split; [|intros e He; now apply (B u)]. destruct (K u Hu) as [(k & Hk & T) _]. destruct k as [[]| |]; cbn in T; congruence.
  - apply (product_good nodes children c s G N H Nn).
    + intros u Hu. split; [auto|]. split; [now apply K|]. split; [|intros e He; now apply (B u)]. destruct (K u Hu) as [(k & Hk & T) _]. destruct k as [[]| |]; cbn in T; congruence.
    + intros d v sv Hd Hv Hs. destruct nodes as [|u nodes']; [cbn in H; discriminate|]. assert (Hu : In u (u :: nodes')) by now left. apply (W u s d v sv Hu); auto; [|now apply K]. destruct (K u Hu) as [(k & Hk & T) _]. destruct k as [[]| |]; cbn in T; congruence.
Qed.

Lemma ready_incl nodes nodes' children : ready nodes children -> incl nodes' nodes -> ready nodes' children.
Proof. intros [G N Fi B W] I'. constructor; auto; [intros u e Hu; apply B; auto|intros u s d v sv Hu; apply W; auto]. Qed.

Lemma fst_filter_map {A K} (eqk : forall a b : K, {a = b} + {a <> b}) (f : A -> K) (l : list A) k :
  map fst (filter (fun us => if eqk (snd us) k then true else false) (map (fun u => (u, f u)) l)) = filter (fun u => if eqk (f u) k then true else false) l.
Proof. induction l as [|a l IH]; [reflexivity|]. cbn. destruct (eqk (f a) k); cbn; now rewrite IH. Qed.

Lemma mapM_ext_in {A B} (f h : A -> option B) l : (forall a, In a l -> f a = h a) -> mapM f l = mapM h l.
Proof. induction l as [|a l IH]; intros H; [reflexivity|]. cbn [mapM]. rewrite (H a (or_introl eq_refl)), IH; [reflexivity|]. intros. apply H. now right. Qed.

Lemma mapM_pair {A K} (f : A -> option K) (l : list A) us (h : A -> K) : mapM (fun u => match f u with None => None | Some s => Some (u, s) end) l = Some us ->
  (forall u s, f u = Some s -> h u = s) -> us = map (fun u => (u, h u)) l /\ forall u, In u l -> f u = Some (h u).
Proof.
  intros H Hh. revert us H. induction l as [|a l IH]; intros us H; cbn [mapM] in H; [inversion H; split; [reflexivity|intros u []]|]. destruct (f a) as [s|] eqn:Ea; [|discriminate]. destruct (mapM _ l) as [us'|]; [|discriminate]. inversion H; subst us. destruct (IH _ eq_refl) as [-> Q].
  cbn. split; [now rewrite (Hh a s Ea)|]. intros u [<-|Hu]; [now rewrite (Hh a s Ea)|auto].
Qed.

Lemma groups_good {K} (eqk : forall a b : K, {a = b} + {a <> b}) (f : id -> K) (F : K -> option (list converted)) nodes ks css :
  NoDup nodes -> NoDup ks -> (forall u, In u nodes -> In (f u) ks) -> mapM F ks = Some css ->
  (forall k cs, In k ks -> F k = Some cs -> Forall good cs /\ Permutation (concat (map c_nodes cs)) (filter (fun u => if eqk (f u) k then true else false) nodes)) ->
  Forall good (concat css) /\ Permutation (concat (map c_nodes (concat css))) nodes.
Proof.
  intros Nn Nk Hk M HF. enough (X : Forall good (concat css) /\ Permutation (concat (map c_nodes (concat css))) (concat (map (fun k => filter (fun u => if eqk (f u) k then true else false) nodes) ks))) by (destruct X as [X1 X2]; split; [exact X1|rewrite X2; now apply group_perm]). clear Nk Hk. apply mapM_Forall2 in M.
  assert (HF' : forall k, In k ks -> forall cs, F k = Some cs -> Forall good cs /\ Permutation (concat (map c_nodes cs)) (filter (fun u => if eqk (f u) k then true else false) nodes)) by (intros; now apply HF). clear HF.
  induction M as [|k cs ks css Q M IH]; [split; constructor|]. destruct IH as [IH1 IH2]; [intros; apply HF'; [now right|assumption]|]. destruct (HF' k (or_introl eq_refl) cs Q) as [A B]. cbn [concat map]. split; [apply Forall_app; auto|].
  rewrite map_app, concat_app. now apply Permutation_app.
Qed.

Definition permutes {A} (order : list A -> list A) : Prop := forall l, NoDup l -> Permutation (order l) l.

Lemma by_scope_good order t nodes children cs : permutes order -> ready nodes children -> create_by_scope domain before after g vars order t children nodes = Some cs -> NoDup nodes ->
  (forall u, In u nodes -> has_type t u) -> Forall good cs /\ Permutation (concat (map c_nodes cs)) nodes.
Proof.
  intros Po R' H Nn K. unfold create_by_scope in H. destruct (mapM _ nodes) as [us|] eqn:E; [|discriminate].
  set (h := fun u => match scope g u with Some s => s | None => [] end). destruct (mapM_pair (scope g) nodes us h E) as [Eus Hs]; [intros u s Q; unfold h; now rewrite Q|].
  assert (H1 : mapM (fun s => match create_layer domain before after g vars t children (filter (fun u => if scope_eq (h u) s then true else false) nodes) with None => None | Some c => Some [c] end) (order (nodup scope_eq (map h nodes))) = Some (map (fun c => [c]) cs)).
  { refine (mapM_some_map (fun s => create_layer domain before after g vars t children (filter (fun u => if scope_eq (h u) s then true else false) nodes)) (fun c => [c]) _ cs _). rewrite <- H. subst us. rewrite map_map. cbn [snd]. apply mapM_ext_in. intros s _. now rewrite fst_filter_map. }
  pose proof (Po _ (NoDup_nodup scope_eq (map h nodes))) as P.
  destruct (groups_good scope_eq h _ nodes _ _ Nn (Permutation_NoDup (Permutation_sym P) (NoDup_nodup _ _)) (fun u Hu => Permutation_in _ (Permutation_sym P) (proj2 (nodup_In _ _ _) (in_map h _ _ Hu))) H1) as [A B].
  - intros s cs0 _ Q. cbv beta in Q. destruct (create_layer _ _ _ _ _ _ _ _) as [c|] eqn:C; [|discriminate]. assert (cs0 = [c]) by congruence. subst cs0.
    destruct (layer_good t (filter (fun u => if scope_eq (h u) s then true else false) nodes) children c s) as [Gc Ec].
    + apply (ready_incl nodes); [exact R'|]. intros u Hu. now apply filter_In in Hu.
    + exact C.
    + now apply NoDup_filter.
    + intros u Hu. apply filter_In in Hu as [Hu Q']. split; [auto|]. rewrite (Hs u Hu). destruct (scope_eq (h u) s); congruence.
    + split; [constructor; auto|]. cbn. now rewrite Ec, app_nil_r.
  - assert (Ecs : concat (map (fun c => [c]) cs) = cs) by (clear; induction cs; cbn; congruence). rewrite Ecs in A, B. auto.
Qed.

Lemma fine_instance u k t : fine u -> node_kind g u = Some k -> instance_of k t = if utype_eq (unit_type k) t then true else false.
Proof.
  intros (t' & U & _ & _ & F & _) Hk. unfold instance_of. destruct (utype_eq (unit_type k) t); [reflexivity|]. destruct k as [d| |]; try reflexivity. destruct d; try reflexivity. 
  inversion U as [u' d' Y|u' ts Y Hno F'|u' ts Y F']; subst u' t'; try congruence. rewrite Hk in Y. injection Y as <-. destruct F.
Qed.

Lemma depth_good to so nodes children cs : permutes to -> (forall t, permutes (so t)) -> ready nodes children -> create_layers domain before after g vars to so nodes children = Some cs -> NoDup nodes ->
  Forall good cs /\ Permutation (concat (map c_nodes cs)) nodes.
Proof.
  intros Pt Ps R' H Nn. unfold create_layers, kinds in H. destruct (mapM _ nodes) as [ks|] eqn:E; [|discriminate]. destruct (mapM (create_by_type _ _ _ _ _ _ _ _) _) as [css|] eqn:M; [|discriminate]. inversion H; subst cs. clear H.
  set (h := fun u => match node_kind g u with Some k => k | None => USum end). destruct (mapM_pair (node_kind g) nodes ks h E) as [Eks Hk]; [intros u s Q; unfold h; now rewrite Q|].
  assert (Eu : map (fun uk => unit_type (snd uk)) ks = map (fun u => unit_type (h u)) nodes) by (subst ks; now rewrite map_map). rewrite Eu in M.
  pose proof (Pt _ (NoDup_nodup utype_eq (map (fun u => unit_type (h u)) nodes))) as P.
  apply (groups_good utype_eq (fun u => unit_type (h u)) _ nodes _ _ Nn (Permutation_NoDup (Permutation_sym P) (NoDup_nodup _ _)) (fun u Hu => Permutation_in _ (Permutation_sym P) (proj2 (nodup_In _ _ _) (in_map (fun u => unit_type (h u)) _ _ Hu))) M).
  intros t cs _ Q. unfold create_by_type in Q.
  assert (Own : map fst (filter (fun uk => instance_of (snd uk) t) ks) = filter (fun u => if utype_eq (unit_type (h u)) t then true else false) nodes).
  { rewrite Eks. assert (A : forall u, In u nodes -> instance_of (h u) t = if utype_eq (unit_type (h u)) t then true else false) by (intros u Hu; apply (fine_instance u); [now apply (rd_fine _ _ R')|auto]). clear -A. induction nodes as [|u l IH]; [reflexivity|]. cbn [map filter fst snd]. rewrite (A u (or_introl eq_refl)). destruct (utype_eq _ _); cbn [map fst]; rewrite IH by (intros; apply A; now right); reflexivity. }
  assert (Good : forall cs, create_by_scope domain before after g vars (so t) t children (map fst (filter (fun uk => instance_of (snd uk) t) ks)) = Some cs -> Forall good cs /\ Permutation (concat (map c_nodes cs)) (filter (fun u => if utype_eq (unit_type (h u)) t then true else false) nodes)).
  { intros cs' C. rewrite Own in C. apply (by_scope_good (so t) t _ children cs' (Ps t)); auto; [apply (ready_incl nodes); auto; intros u Hu; now apply filter_In in Hu|now apply NoDup_filter|]. intros u Hu. apply filter_In in Hu as [Hu Q']. exists (h u). split; [auto|]. destruct (utype_eq _ _); congruence. }
  destruct ks as [|[u0 k0] ks'] eqn:Ek; [discriminate|]. rewrite <- Ek in *. destruct (filter _ ks) as [|[u1 k1] own] eqn:Eo; [discriminate|]. destruct (is_leaf k0); [|now apply Good].
  destruct (is_leaf k1); [|discriminate]. assert (T1 : unit_type k1 = t).
  { assert (A : In (u1, k1) (filter (fun uk => instance_of (snd uk) t) ks)) by (rewrite Eo; now left). apply filter_In in A as [A B]. rewrite Eks in A. apply in_map_iff in A as (u & X & Hu). inversion X; subst u1 k1. cbn [snd] in B. rewrite (fine_instance u (h u) t (rd_fine _ _ R' u Hu) (Hk u Hu)) in B. destruct (utype_eq _ _); congruence. }
  rewrite T1 in Q. now apply Good.
Qed.
End Depth.

(** ** The loop over the depths *)
Section Circuit.
Variable domain : nat -> nat.
Variables before after : R -> R.
Variable g : graph dist.
Variable vars : list nat.
Hypothesis Hvars : StronglySorted lt vars.
Variable r : id.
Hypothesis Hroot : fine domain g vars r.
Hypothesis Hterm : leaves_terminal g.

Lemma reach_fine u : reach g r u -> fine domain g vars u.
Proof.
  induction 1 as [|v e Hv IH Hin Hs]; [exact Hroot|]. apply (fine_child domain g vars v e IH).
  - apply out_edges_In. auto.
  - destruct IH as (t & U & _). inversion U as [u' d Y|u' ts Y Hno F|u' ts Y F]; subst u'; auto. subst v. destruct (Hterm e d Hin Y).
Qed.

Variable lv : id -> nat.
Hypothesis Hlv0 : lv r = 0.
Hypothesis Hlv : forall e, In e (g_edges g) -> reach g r (e_src e) -> lv (e_dst e) = S (lv (e_src e)).
Hypothesis Hwide : wide g r.

Lemma reach_away u : reach g r u -> away g r u (lv u).
Proof. induction 1 as [|v e Hv IH Hin Hs]; [rewrite Hlv0; constructor|]. subst v. rewrite (Hlv e Hin Hv). now apply (away_step g r (e_src e)). Qed.

Lemma levels_head ls k x : levels_ok lv k ls -> In x (concat ls) -> lv x = k -> In x (hd [] ls).
Proof.
  destruct ls as [|l ls]; cbn; [tauto|]. intros [H1 H2] Hx E. apply in_app_or in Hx as [Hx|Hx]; [exact Hx|]. pose proof (levels_ok_ge lv ls (S k) x H2 Hx). lia.
Qed.

Lemma from_depth_good o : (forall k, permutes (type_order o k)) -> (forall k t, permutes (scope_order o k t)) ->
  forall ls depth k cs, levels_ok lv k ls -> (forall x, In x (concat ls) -> reach g r x) ->
  (forall x e, In x (concat ls) -> In e (out_edges g x) -> In (e_dst e) (concat ls)) -> NoDup (concat ls) ->
  from_depth domain before after o g vars depth ls = Some cs ->
  Forall (good domain before after g vars) cs /\ Permutation (concat (map c_nodes cs)) (hd [] ls).
Proof.
  intros Pt Ps. induction ls as [|nodes ls IH]; intros depth k cs Hl Hr Hc Hn H; cbn [from_depth] in H; [inversion H; subst; cbn; auto|].
  destruct (from_depth domain before after o g vars (S depth) ls) as [children|] eqn:E; [|discriminate]. cbn [levels_ok concat] in *. destruct Hl as [Hl1 Hl2]. destruct (NoDup_app_inv _ _ Hn) as (N1 & N2 & N3).
  assert (Below : forall x e, In x (nodes ++ concat ls) -> In e (out_edges g x) -> lv (e_dst e) = S (lv x)).
  { intros x e Hx He. apply out_edges_In in He as [He1 He2]. subst x. apply Hlv; auto. }
  destruct (IH (S depth) (S k) children Hl2) as [G P]; auto.
  - intros x Hx. apply Hr. apply in_or_app. auto.
  - intros x e Hx He. assert (Hx' : In x (nodes ++ concat ls)) by (apply in_or_app; auto). pose proof (Hc x e Hx' He) as Hd. apply in_app_or in Hd as [Hd|Hd]; [|exact Hd]. pose proof (levels_ok_ge lv ls (S k) x Hl2 Hx). pose proof (Below x e Hx' He) as B. rewrite (Hl1 _ Hd) in B. lia.
  - assert (Head : forall v, In v (concat (map c_nodes children)) -> In v (hd [] ls)) by (intros v Hv; exact (Permutation_in _ P Hv)).
    assert (Headc : forall v, In v (hd [] ls) -> In v (concat ls)) by (intros v; destruct ls; cbn; [tauto|intros; apply in_or_app; auto]).
    cbn [hd]. apply (depth_good domain before after g vars Hvars (type_order o depth) (scope_order o depth) nodes children cs); auto. constructor.
    + exact G.
    + apply (Permutation_NoDup (Permutation_sym P)). destruct ls; cbn in *; [constructor|]. now destruct (NoDup_app_inv _ _ N2).
    + intros u Hu. apply reach_fine. apply Hr. apply in_or_app. auto.
    + intros u e Hu He. assert (Hu' : In u (nodes ++ concat ls)) by (apply in_or_app; auto). apply (Permutation_in _ (Permutation_sym P)). pose proof (Hc u e Hu' He) as Hd. pose proof (Below u e Hu' He) as B. rewrite (Hl1 u Hu) in B.
      apply in_app_or in Hd as [Hd|Hd]; [rewrite (Hl1 _ Hd) in B; lia|]. now apply (levels_head ls (S k)).
    + intros u s d v sv Hu Ku Su Hd Hv Sv x Hx. assert (Hru : reach g r u) by (apply Hr; apply in_or_app; auto). assert (Hv' : In v (hd [] ls)) by (apply Head; apply in_concat; exists (c_nodes d); split; [now apply in_map|exact Hv]).
      assert (Hrv : reach g r v) by (apply Hr; apply in_or_app; auto). assert (Lv : lv v = S k) by (destruct ls as [|l' ls']; [destruct Hv'|]; cbn in Hl2; now apply Hl2).
      pose proof (reach_away u Hru) as Au. rewrite (Hl1 u Hu) in Au. pose proof (reach_away v Hrv) as Av. rewrite Lv in Av. pose proof (reach_fine u Hru) as Fu. pose proof (reach_fine v Hrv) as Fv. pose proof Fu as (t & U & _). pose proof Fv as (t' & U' & _).
      destruct (fine_scope domain g vars u t Fu U) as (s1 & A1 & _ & _ & Q1). destruct (fine_scope domain g vars v t' Fv U') as (s2 & A2 & _ & _ & Q2). assert (s1 = s) by congruence. assert (s2 = sv) by congruence. subst s1 s2. apply Q1. apply (Hwide u v k t t' Ku Au Av U U'). now apply Q2.
Qed.
End Circuit.

Lemma layers_from_root {D} (g : graph D) r ls : layers_from g r = Some ls -> exists ls', ls = [r] :: ls'.
Proof.
  unfold layers_from. destruct (has_node g r); [|discriminate]. intros H. rewrite bfs_loop_step in H by congruence. destruct (bfs_loop g _ _ _) as [ls'|]; [|discriminate]. injection H as <-. eauto.
Qed.

Lemma column_all vars : StronglySorted lt vars -> map (column vars) vars = seq 0 (length vars).
Proof.
  intros H. apply nth_ext with (d := 0) (d' := 0); [now rewrite map_length, seq_length|]. intros k Hk. rewrite map_length in Hk. rewrite seq_nth by exact Hk. cbn [plus]. rewrite (nth_indep _ 0 (column vars 0)) by now rewrite map_length. rewrite map_nth.
  destruct (nth_error vars k) as [v|] eqn:E; [|apply nth_error_None in E; lia]. rewrite (nth_error_nth _ _ 0 E).
  pose proof (column_index vars v H (nth_error_In _ _ E)) as C. apply var_index_some in C.
  assert (N : NoDup vars). { clear -H. induction H as [|a l So IH F]; [constructor|]. constructor; [|exact IH]. intros X. rewrite Forall_forall in F. specialize (F a X). lia. }
  assert (Hc : column vars v < length vars) by (apply nth_error_Some; congruence). rewrite (NoDup_nth_error vars) in N. apply N; [exact Hc|congruence].
Qed.
