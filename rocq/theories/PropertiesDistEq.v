(** * C76, C77: equality and hashing of distributions *)
From Coq Require Import List Arith Bool Lia Reals Lra ZArith Sorting.Sorted Permutation.
From Verif Require Import Num Interval Dist DistFacts TreeLocal Multinomial DistEq.
Import ListNotations.
Local Set Bullet Behavior "Strict Subproofs".
Local Open Scope R_scope.

(** ** C76 *)

(** Two distributions that answer every question alike. *)
Definition same_answers (a b : dist) : Prop :=
  (forall x, ll1 a x = ll1 b x) /\ (forall A, prob1 a A = prob1 b A) /\ (forall x, cdf1 a x = cdf1 b x) /\
  (forall n c, moment1 a n c = moment1 b n c) /\ (forall x, in_evset (support1 a) x = in_evset (support1 b) x).

(** A proper distribution whose parameters are numbers. *)
Definition proper (d : dist) : Prop := dist_ok d /\ match d with DDirac _ _ cap => cap <> NaN | _ => True end.

Definition C76_full : Prop :=
  (forall a, proper a -> py_eq a a = true) /\
  (forall a b, proper a -> proper b -> py_eq a b = true -> py_eq b a = true) /\
  (forall a b c, proper a -> proper b -> proper c -> py_eq a b = true -> py_eq b c = true -> py_eq a c = true) /\
  (forall a b, proper a -> proper b -> py_eq a b = true -> same_answers a b /\ hash_key a = hash_key b).

(** What equality decides: the same kind of distribution over the same variable with the same parameters, where the order
    of a dictionary does not count. *)
Definition same_parameters (a b : dist) : Prop :=
  match a, b with
  | DSym v p, DSym w q | DInt v p, DInt w q => v = w /\ Permutation p q
  | _, _ => a = b
  end.

Lemma neqb_spec a b : a <> NaN -> (neqb a b = true <-> a = b).
Proof.
  intros Ha. destruct a as [| |x|], b as [| |y|]; cbn; try (split; [discriminate|congruence]); try tauto; try (split; congruence).
  destruct (Reqb_spec x y) as [->|]; split; congruence.
Qed.

Lemma sint_eqb_spec i j : lo i <> NaN -> hi i <> NaN -> (sint_eqb i j = true <-> i = j).
Proof.
  intros H1 H2. unfold sint_eqb. rewrite !andb_true_iff, !neqb_spec, !eqb_true_iff by auto.
  destruct i as [a b c d], j as [a' b' c' d']; cbn. split; [intros [[[-> ->] ->] ->]; reflexivity|intros H; inversion H; auto].
Qed.

Lemma find_key (q : dict) k x : NoDup (keys q) -> In (k, x) q -> find (fun kv' => Z.eqb (fst kv') k) q = Some (k, x).
Proof.
  induction q as [|[k' y] q IH]; [intros _ []|]. cbn. intros Hn Hi. inversion Hn as [|? ? Hni Hn']; subst.
  destruct Hi as [E|Hi].
  - injection E as -> ->. now rewrite Z.eqb_refl.
  - destruct (Z.eqb_spec k' k) as [->|]; auto. exfalso. apply Hni. change k with (fst (k, x)). now apply in_map.
Qed.

Lemma NoDup_keys_list (p : dict) : NoDup (keys p) -> NoDup p.
Proof. apply NoDup_map_inv. Qed.

Lemma dict_eqb_spec p q : NoDup (keys p) -> NoDup (keys q) -> (dict_eqb p q = true <-> Permutation p q).
Proof.
  intros Hp Hq. unfold dict_eqb. rewrite andb_true_iff, Nat.eqb_eq, forallb_forall. split.
  - intros [Hl Hf]. apply NoDup_Permutation_bis; [now apply NoDup_keys_list|lia|].
    intros [k x] Hi. specialize (Hf _ Hi). cbn [fst snd] in Hf.
    destruct (find _ q) as [[k' y]|] eqn:E; [|discriminate]. cbn [snd] in Hf.
    apply find_some in E. destruct E as [E1 E2]. cbn [fst] in E2. apply Z.eqb_eq in E2. subst k'.
    destruct (Reqb_spec x y) as [->|]; [auto|discriminate].
  - intros H. split; [now apply Permutation_length|]. intros [k x] Hi. cbn [fst snd].
    rewrite (find_key q k x Hq (Permutation_in _ H Hi)). cbn [snd]. destruct (Reqb_spec x x); congruence.
Qed.

Lemma dict_ok_NoDup p : dict_ok p -> NoDup (keys p).
Proof. intros [H _]. exact H. Qed.

Lemma Reqb_eq x y : Reqb x y = true <-> x = y.
Proof. destruct (Reqb_spec x y); split; congruence. Qed.

(** Equality decides exactly that, in both directions. *)
Theorem C76_equality a b : proper a -> proper b -> (py_eq a b = true <-> same_parameters a b).
Proof.
  intros [Ha Ha'] [Hb Hb'].
  destruct a as [v i|v loc cap|v mu s|v i mu s|v p|v p], b as [w j|w loc' cap'|w mu' s'|w j mu' s'|w q|w q]; cbn in Ha, Hb, Ha', Hb';
    unfold py_eq; cbn; unfold base_eq; cbn; rewrite ?andb_false_r, ?andb_true_r; cbn; try (split; [discriminate|congruence]).
  - destruct Ha as (x & y & E1 & E2 & _). rewrite andb_true_iff, sint_eqb_spec, Nat.eqb_eq by congruence.
    split; [intros [-> ->]; reflexivity|intros H; inversion H; auto].
  - rewrite !andb_true_iff, Nat.eqb_eq, Reqb_eq, neqb_spec by auto.
    split; [intros [-> [-> ->]]; reflexivity|intros H; inversion H; auto].
  - rewrite !andb_true_iff, Nat.eqb_eq, !Reqb_eq. split; [intros [-> [-> ->]]; reflexivity|intros H; inversion H; auto].
  - destruct Ha as (_ & N1 & N2 & _). rewrite !andb_true_iff, Nat.eqb_eq, !Reqb_eq, sint_eqb_spec by auto.
    split; [intros [[-> [-> ->]] ->]; reflexivity|intros H; inversion H; auto].
  - rewrite andb_true_iff, dict_eqb_spec, Nat.eqb_eq by (apply dict_ok_NoDup; tauto). tauto.
  - rewrite andb_true_iff, dict_eqb_spec, Nat.eqb_eq by (apply dict_ok_NoDup; tauto). tauto.
Qed.

(** Hence it is an equivalence relation on proper distributions. *)
Theorem C76_equivalence :
  (forall a, proper a -> py_eq a a = true) /\
  (forall a b, proper a -> proper b -> py_eq a b = true -> py_eq b a = true) /\
  (forall a b c, proper a -> proper b -> proper c -> py_eq a b = true -> py_eq b c = true -> py_eq a c = true).
Proof.
  split; [|split].
  - intros a Ha. apply C76_equality; auto. destruct a; cbn; auto.
  - intros a b Ha Hb. rewrite !C76_equality by auto. destruct a, b; cbn; try congruence; intros [-> H]; split; auto; now symmetry.
  - intros a b c Ha Hb Hc. rewrite !C76_equality by auto. destruct a, b, c; cbn; try congruence; intros [-> H1] [-> H2]; split; auto;
      etransitivity; eauto.
Qed.

(** ** Answers that do not depend on the order of the dictionary *)

Lemma perm_keys (p q : dict) : Permutation p q -> NoDup (keys p) -> NoDup (keys q).
Proof. intros H Hn. eapply Permutation_NoDup; [|exact Hn]. now apply Permutation_map. Qed.

Lemma ll_perm (p q : dict) x : Permutation p q -> NoDup (keys p) -> forall acc : num,
  fold_left (fun acc kv => if Reqb x (IZR (fst kv)) then nlog (Fin (snd kv)) else acc) p acc =
  fold_left (fun acc kv => if Reqb x (IZR (fst kv)) then nlog (Fin (snd kv)) else acc) q acc.
Proof.
  induction 1 as [|[k y] p q H IH|[k y] [k' y'] p|p q r H1 IH1 H2 IH2]; intros Hn acc; auto.
  - cbn [fold_left]. apply IH. now inversion Hn.
  - cbn [fold_left fst snd]. f_equal. cbn in Hn. inversion Hn as [|? ? Hni _]; subst. cbn in Hni.
    destruct (Reqb_spec x (IZR k)) as [E1|], (Reqb_spec x (IZR k')) as [E2|]; auto.
    exfalso. rewrite E1 in E2. apply eq_IZR in E2. subst. apply Hni. now left.
  - rewrite IH1 by auto. apply IH2. eapply perm_keys; eauto.
Qed.

Lemma dget_perm (p q : dict) k : Permutation p q -> NoDup (keys p) -> dget p k = dget q k.
Proof.
  intros H Hn. unfold dget. destruct (find (fun kv => Z.eqb (fst kv) k) p) as [[k' y]|] eqn:E.
  - apply find_some in E. destruct E as [E1 E2]. cbn in E2. apply Z.eqb_eq in E2. subst k'.
    rewrite (find_key q k y); auto; [eapply perm_keys; eauto|eapply Permutation_in; eauto].
  - destruct (find (fun kv => Z.eqb (fst kv) k) q) as [[k' y]|] eqn:E'; auto. exfalso.
    apply find_some in E'. destruct E' as [E1 E2]. pose proof (find_none _ _ E _ (Permutation_in _ (Permutation_sym H) E1)). congruence.
Qed.

Lemma fold_in_perm (f : Z * R -> bool) (p q : dict) : Permutation p q -> forall acc,
  fold_left (fun acc kv => if f kv then acc + snd kv else acc) p acc = fold_left (fun acc kv => if f kv then acc + snd kv else acc) q acc.
Proof.
  induction 1 as [|a p q H IH|a b p|p q r H1 IH1 H2 IH2]; intros acc; auto.
  - cbn [fold_left]. apply IH.
  - cbn [fold_left]. f_equal. destruct (f a), (f b); lra.
  - now rewrite IH1.
Qed.

Lemma existsb_perm {A} (f : A -> bool) l l' : Permutation l l' -> existsb f l = existsb f l'.
Proof.
  intros H. destruct (existsb f l) eqn:E; symmetry.
  - apply existsb_exists in E. destruct E as (x & H1 & H2). apply existsb_exists. exists x. split; auto. eapply Permutation_in; eauto.
  - apply not_true_is_false. intros E'. apply existsb_exists in E'. destruct E' as (x & H1 & H2).
    assert (existsb f l = true); [|congruence]. apply existsb_exists. exists x. split; auto. exact (Permutation_in _ (Permutation_sym H) H1).
Qed.

Lemma filter_perm {A} (f : A -> bool) l l' : Permutation l l' -> Permutation (filter f l) (filter f l').
Proof.
  induction 1 as [|a p q H IH|a b p|p q r H1 IH1 H2 IH2]; cbn; auto.
  - destruct (f a); auto.
  - destruct (f a), (f b); auto. constructor.
  - etransitivity; eauto.
Qed.

Lemma sorted_perm_eq (p q : dict) : Permutation p q -> StronglySorted Z.lt (keys p) -> StronglySorted Z.lt (keys q) -> p = q.
Proof.
  revert q. induction p as [|[k x] p IH]; intros q H Sp Sq.
  - apply Permutation_nil in H. auto.
  - destruct q as [|[k' y] q]; [symmetry in H; apply Permutation_nil in H; discriminate|].
    cbn in Sp, Sq. inversion Sp as [|? ? Sp' Fp]; subst. inversion Sq as [|? ? Sq' Fq]; subst.
    assert (E : (k, x) = (k', y)).
    { assert (H1 : In (k, x) ((k', y) :: q)) by (eapply Permutation_in; [exact H|now left]).
      assert (H2 : In (k', y) ((k, x) :: p)) by (eapply Permutation_in; [symmetry; exact H|now left]).
      destruct H1 as [H1|H1]; [auto|]. destruct H2 as [H2|H2]; [auto|]. exfalso.
      rewrite Forall_forall in Fp, Fq. apply (in_map fst) in H1. apply (in_map fst) in H2. specialize (Fq _ H1). specialize (Fp _ H2).
      cbn in Fp, Fq. lia. }
    injection E as -> ->. f_equal. apply IH; auto. now apply Permutation_cons_inv in H.
Qed.

(** Equal distributions have the same density, the same probability of every event, the same moments and support.  Missing:
    the cdf and the hash of discrete distributions (false, see [C76_refuted]). *)
Theorem C76_answers_partial a b : proper a -> proper b -> py_eq a b = true ->
  (forall x, ll1 a x = ll1 b x) /\ (forall A, prob1 a A = prob1 b A) /\
  (forall n c, moment1 a n c = moment1 b n c) /\ (forall x, in_evset (support1 a) x = in_evset (support1 b) x).
Proof.
  intros Ha Hb H. apply C76_equality in H; auto. destruct Ha as [Ha _].
  assert (D : a = b \/ exists v p q, Permutation p q /\ NoDup (keys p) /\ ((a = DSym v p /\ b = DSym v q) \/ (a = DInt v p /\ b = DInt v q))).
  { destruct a, b; cbn in H; auto; destruct H as [-> H]; right; do 3 eexists; (split; [exact H|split; [apply dict_ok_NoDup, Ha|auto]]). }
  destruct D as [->|(v & p & q & P & N & [[-> ->]|[-> ->]])]; [auto| |]; (split; [|split; [|split]]).
  - intros x. cbn. now apply ll_perm.
  - intros [A|l]; cbn; auto. do 2 f_equal. f_equal. apply map_ext. intros k. now apply dget_perm.
  - reflexivity.
  - intros x. cbn. apply existsb_perm, Permutation_map. now apply filter_perm.
  - intros x. cbn. now apply ll_perm.
  - intros [A|l]; cbn; auto. do 2 f_equal. now apply (fold_in_perm (fun kv => in_interval A (IZR (fst kv)))).
  - intros n c. cbn. f_equal. unfold int_moment. apply Rsum_perm. now apply Permutation_map.
  - intros x. cbn. unfold in_interval. apply existsb_perm, Permutation_map. now apply filter_perm.
Qed.

Definition in_key_order (d : dist) : Prop := match d with DSym _ p | DInt _ p => StronglySorted Z.lt (keys p) | _ => True end.

(** With dictionaries in ascending order everything agrees: equal distributions are then interchangeable. *)
Theorem C76_ordered_partial a b : proper a -> proper b -> in_key_order a -> in_key_order b -> py_eq a b = true ->
  same_answers a b /\ hash_key a = hash_key b.
Proof.
  intros Ha Hb Oa Ob H. apply C76_equality in H; auto.
  assert (E : a = b).
  { destruct a, b; cbn in H, Oa, Ob; auto; destruct H as [-> H]; f_equal; now apply sorted_perm_eq. }
  subst b. repeat split; auto.
Qed.

(** In general neither the hash nor the cdf agrees: the hash reads the items in insertion order, and the cdf of an integer
    distribution stops at the first key above the point. *)
Definition up_first : dist := DInt 0 [(1%Z, 1/4); (2%Z, 3/4)].
Definition down_first : dist := DInt 0 [(2%Z, 3/4); (1%Z, 1/4)].

Lemma up_down_proper : proper up_first /\ proper down_first.
Proof.
  split; (split; [|exact I]); (split; [split|]); cbn; try lra.
  all: repeat constructor; cbn; try lra; intuition discriminate.
Qed.

Example up_down_equal : py_eq up_first down_first = true.
Proof. apply C76_equality; try apply up_down_proper. split; auto. constructor. Qed.

Theorem C76_hash_refuted : exists a b, proper a /\ proper b /\ py_eq a b = true /\ hash_key a <> hash_key b.
Proof.
  exists up_first, down_first. split; [apply up_down_proper|]. split; [apply up_down_proper|]. split; [apply up_down_equal|].
  cbn. intros H. discriminate.
Qed.

(** Gaussian distributions, truncated or not, cannot be put into sets or used as keys: they have no hash.  All others have one. *)
Theorem C76_unhashable d : hash_key d = None <-> class_of d = CGauss \/ class_of d = CTGauss.
Proof. destruct d; cbn; intuition discriminate. Qed.
Example C76_unhashable_case : hash_key (DGauss 0 0 1) = None.
Proof. apply C76_unhashable. now left. Qed.

Theorem C76_cdf_refuted : exists a b x, proper a /\ proper b /\ py_eq a b = true /\ cdf1 a x <> cdf1 b x.
Proof.
  exists up_first, down_first, (Fin 1). split; [apply up_down_proper|]. split; [apply up_down_proper|]. split; [apply up_down_equal|].
  cbn. rb; try lra. intros H. injection H as H. lra.
Qed.

Theorem C76_refuted : ~ C76_full.
Proof.
  intros (_ & _ & _ & H). destruct C76_hash_refuted as (a & b & Ha & Hb & E & N). apply N. now apply (H a b Ha Hb E).
Qed.

(** Why the subclass is asked first: the method of the Gaussian alone takes a truncated Gaussian for equal. *)
Example gauss_method v i mu s : eq_method (DGauss v mu s) (DTGauss v i mu s) = true /\ py_eq (DGauss v mu s) (DTGauss v i mu s) = false.
Proof.
  unfold py_eq. cbn. unfold base_eq. cbn. rewrite Nat.eqb_refl. split; [|now rewrite ?andb_false_r].
  destruct (Reqb_spec mu mu), (Reqb_spec s s); cbn; congruence.
Qed.

(** ** C77: equality of multinomial distributions *)

Section Multi.
Variable dom : nat -> list Z.

(** A probability array: finite non-negative entries that sum to one. *)
Definition multi_proper (m : multi) : Prop :=
  (forall s, In s (states (shape dom (m_vars m))) -> exists x, m_at m s = Fin x /\ 0 <= x) /\ m_total dom m = Fin 1.

Definition entry (m : multi) (s : list nat) : R := toR (m_at m s).

(** Distance of two sums of close numbers. *)
Lemma close_sum {A} (f g : A -> R) l : (forall a, In a l -> Rabs (f a - g a) <= atol + rtol * g a) ->
  Rabs (Rsum (map f l) - Rsum (map g l)) <= INR (length l) * atol + rtol * Rsum (map g l).
Proof.
  induction l as [|a l IH]; intros H.
  - cbn. rewrite Rminus_0_r, Rabs_R0. lra.
  - cbn [map Rsum fold_right length]. rewrite S_INR.
    specialize (IH (fun b Hb => H b (or_intror Hb))). pose proof (H a (or_introl eq_refl)) as Ha.
    unfold Rsum in *. set (F := fold_right Rplus 0 (map f l)) in *. set (G := fold_right Rplus 0 (map g l)) in *.
    replace (f a + F - (g a + G)) with ((f a - g a) + (F - G)) by ring.
    eapply Rle_trans; [apply Rabs_triang|]. lra.
Qed.

(** Two multinomials that compare equal are over the same variables, and the probabilities of any set of states differ by at
    most the tolerances of [np.allclose], added up. *)
Theorem C77_close_partial m m' (l : list (list nat)) : multi_proper m -> multi_proper m' -> multi_eq dom m m' = true ->
  m_vars m = m_vars m' /\
  ((forall s, In s l -> In s (states (shape dom (m_vars m)))) ->
   Rabs (Rsum (map (entry m) l) - Rsum (map (entry m') l)) <= INR (length l) * atol + rtol * Rsum (map (entry m') l)).
Proof.
  intros [Hm _] [Hm' _] H. unfold multi_eq in H. apply andb_prop in H. destruct H as [H H3]. apply andb_prop in H. destruct H as [H1 _].
  unfold leqb in H1. destruct (list_eq_dec Nat.eq_dec (m_vars m) (m_vars m')) as [E|]; [|discriminate].
  split; auto. intros Hl. apply close_sum. intros s Hs. rewrite forallb_forall in H3. specialize (H3 s (Hl s Hs)).
  destruct (Hm s (Hl s Hs)) as (x & Ex & Px). rewrite E in Hl. destruct (Hm' s (Hl s Hs)) as (y & Ey & Py).
  unfold entry. rewrite Ex, Ey in *. cbn [toR]. unfold close in H3. rewrite (Rabs_right y) in H3 by lra.
  destruct (Rleb_spec (Rabs (x - y)) (atol + rtol * y)); [auto|discriminate].
Qed.

Theorem C77_reflexive m : multi_proper m -> multi_eq dom m m = true.
Proof.
  intros [H _]. unfold multi_eq, leqb. destruct (list_eq_dec Nat.eq_dec (m_vars m) (m_vars m)); [|congruence].
  destruct (list_eq_dec Nat.eq_dec (shape dom (m_vars m)) (shape dom (m_vars m))); [|congruence]. cbn [andb].
  apply forallb_forall. intros s Hs. destruct (H s Hs) as (x & -> & Hx). cbn. rewrite Rminus_eq_0, Rabs_R0, (Rabs_right x) by lra.
  unfold atol, rtol. destruct (Rleb_spec 0 (/ 100000000 + / 100000 * x)); [auto|lra].
Qed.
End Multi.

(** The full claim, that equality is an equivalence relation and that equal means the same probabilities, is false. *)
Definition C77_full : Prop := forall dom,
  (forall m m', multi_proper dom m -> multi_proper dom m' -> multi_eq dom m m' = true -> multi_eq dom m' m = true) /\
  (forall a b c, multi_proper dom a -> multi_proper dom b -> multi_proper dom c ->
     multi_eq dom a b = true -> multi_eq dom b c = true -> multi_eq dom a c = true) /\
  (forall m m', multi_proper dom m -> multi_proper dom m' -> multi_eq dom m m' = true ->
     forall s, In s (states (shape dom (m_vars m))) -> m_at m s = m_at m' s).

(** A coin. *)
Definition coin (x : R) : multi := mkMulti [0%nat] (fun s => match s with [0%nat] => Fin x | _ => Fin (1 - x) end).
Definition two : nat -> list Z := fun _ => [0%Z; 1%Z].

Lemma coin_proper x : 0 <= x <= 1 -> multi_proper two (coin x).
Proof.
  intros Hx. split.
  - cbn. intros s [<-|[<-|[]]]; [exists x|exists (1 - x)]; split; auto; lra.
  - cbn. f_equal. lra.
Qed.

Lemma coin_eq x y : 0 <= x <= 1 -> 0 <= y <= 1 ->
  (multi_eq two (coin x) (coin y) = true <-> Rabs (x - y) <= atol + rtol * y /\ Rabs (x - y) <= atol + rtol * (1 - y)).
Proof.
  intros Hx Hy. unfold multi_eq. cbn -[close]. rewrite andb_true_r. unfold close.
  rewrite (Rabs_right y), (Rabs_right (1 - y)) by lra. replace (1 - x - (1 - y)) with (- (x - y)) by ring. rewrite Rabs_Ropp.
  rewrite andb_true_iff. destruct (Rleb_spec (Rabs (x - y)) (atol + rtol * y)), (Rleb_spec (Rabs (x - y)) (atol + rtol * (1 - y)));
    split; intros [? ?]; try discriminate; try tauto; auto.
Qed.

(** Not symmetric: coins of bias 1/2 and a hair below. *)
Theorem C77_not_symmetric : exists m m', multi_proper two m /\ multi_proper two m' /\ multi_eq two m m' = true /\ multi_eq two m' m = false.
Proof.
  set (d := atol + rtol * (1/2)). assert (Hd : 0 < d < 1/2) by (unfold d, atol, rtol; lra).
  exists (coin (1/2 - d)), (coin (1/2)). split; [apply coin_proper; lra|]. split; [apply coin_proper; lra|]. split.
  - apply coin_eq; try lra. replace (1/2 - d - 1/2) with (- d) by ring. rewrite Rabs_Ropp, Rabs_right by lra. unfold d. lra.
  - apply not_true_is_false. intros H. apply coin_eq in H; try lra. destruct H as [H _].
    replace (1/2 - (1/2 - d)) with d in H by ring. rewrite Rabs_right in H by lra. unfold d, atol, rtol in *. lra.
Qed.

(** Not transitive, and equal distributions need not be the same. *)
Theorem C77_not_transitive : exists a b c, multi_proper two a /\ multi_proper two b /\ multi_proper two c /\
  multi_eq two a b = true /\ multi_eq two b c = true /\ multi_eq two a c = false.
Proof.
  set (d := rtol * (2/5)). assert (Hd : 0 < d < 1/100) by (unfold d, rtol; lra).
  exists (coin (1/2 - d)), (coin (1/2)), (coin (1/2 + d)).
  split; [apply coin_proper; lra|]. split; [apply coin_proper; lra|]. split; [apply coin_proper; lra|]. split; [|split].
  - apply coin_eq; try lra. replace (1/2 - d - 1/2) with (- d) by ring. rewrite Rabs_Ropp, Rabs_right by lra. unfold d, atol, rtol. lra.
  - apply coin_eq; try lra. replace (1/2 - (1/2 + d)) with (- d) by ring. rewrite Rabs_Ropp, Rabs_right by lra. unfold d, atol, rtol. lra.
  - apply not_true_is_false. intros H. apply coin_eq in H; try lra. destruct H as [_ H].
    replace (1/2 - d - (1/2 + d)) with (- (2 * d)) in H by ring. rewrite Rabs_Ropp, Rabs_right in H by lra. unfold d, atol, rtol in *. lra.
Qed.

Theorem C77_refuted : ~ C77_full.
Proof.
  intros H. destruct (H two) as [S _]. destruct C77_not_symmetric as (m & m' & H1 & H2 & H3 & H4).
  rewrite (S m m' H1 H2 H3) in H4. discriminate.
Qed.

Print Assumptions C76_equality.
Print Assumptions C76_equivalence.
Print Assumptions C76_answers_partial.
Print Assumptions C76_ordered_partial.
Print Assumptions C76_hash_refuted.
Print Assumptions C76_unhashable.
Print Assumptions C76_cdf_refuted.
Print Assumptions C76_refuted.
Print Assumptions C77_close_partial.
Print Assumptions C77_reflexive.
Print Assumptions C77_not_symmetric.
Print Assumptions C77_not_transitive.
Print Assumptions C77_refuted.
