(** * Property C75: a circuit node made from a unit has the subcircuits of the unit as conditional distributions *)
From Coq Require Import List Arith Bool Lia ZArith Reals Lra.
From Verif Require Import Num Graph GraphFacts Spec SpecFacts Circuit EvalFacts VarFacts Interval Dist DistFacts TreeProb TreeLocal
  Conditional LeafCond SupportFacts ModeFacts PropertiesDist PropertiesQuery PropertiesProb PropertiesSupport Settled
  Multinomial MultinomialFacts Mixture Layout LayoutFacts Bayes BayesFacts PropertiesForward BayesNet BayesCircuit PropertiesBayes
  WholeLeaf BayesHybrid BayesHybridFacts PropertiesBayesHybrid BayesFromUnit JaxLayerFacts.
Import ListNotations.
Local Set Bullet Behavior "Strict Subproofs".
Local Open Scope R_scope.

(** Full statement: for every mixture the new node has one circuit for every component, in their order, with the density of
    the component.  It is false, see below. *)
Definition C75_full : Prop := forall (g : graph dist) u ts, wf g -> unfolds g u (PSum ts) -> Forall (fun wt => smooth dist_vars (snd wt)) ts ->
  exists cpd, from_unit g u = Some cpd /\ map fst cpd = zrange (length ts) /\
    Forall2 (fun kh wt => forall x, likelihood_at (snd kh) x (lik (snd wt) x)) cpd ts.

Definition is_leaf (t : pc dist) : Prop := match t with PLeaf _ => True | _ => False end.

Definition alone (d : dist) : graph dist := mkGraph [(0%nat, ULeaf d)] [].

Lemma one_leaf_layered (d : dist) : layered_circuit (alone d) (PLeaf d).
Proof.
  split; [|split].
  - constructor; cbn; [repeat constructor; intros []|constructor|intros e []|intros e []].
  - intros e d' [].

  - exists 0%nat. split; [reflexivity|]. split; [exists (fun _ => 0%nat); split; [reflexivity|intros e []]|]. now constructor.
Qed.

(** What [from_unit] returns when every component is a leaf. *)
Lemma from_unit_leaves (g : graph dist) u ts : unfolds g u (PSum ts) -> Forall (fun wt => is_leaf (snd wt)) ts ->
  exists cpd, from_unit g u = Some cpd /\ map fst cpd = zrange (length ts) /\ Forall2 (fun kh wt => exists d, snd wt = PLeaf d /\ snd kh = alone d) cpd ts.
Proof.
  intros U L. remember (PSum ts) as t eqn:Et. destruct U as [|u ts' K N F|]; try discriminate. injection Et as ->. clear K N.
  unfold from_unit, subcircuits, zrange. rewrite map_length. generalize 0%nat as k. revert L.
  induction F as [|e wt es ts [_ U] F IH]; intros L k; [exists []; repeat constructor|].
  inversion L as [|? ? L1 L2]; subst. destruct (IH L2 (S k)) as (cpd & E & M & R1). destruct wt as [w t]. cbn [snd] in *. destruct t as [d| |]; try destruct L1.
  remember (e_dst e) as s eqn:Es. remember (PLeaf d) as t eqn:Et. destruct U as [s' d' K| |]; try discriminate. injection Et as ->.
  exists ((Z.of_nat k, alone d) :: cpd). split; [|split].
  - cbn [map length seq combine mapM fst snd]. rewrite <- Es. unfold copy_unit at 1. rewrite K. rewrite E. reflexivity.
  - cbn [map fst length seq]. now rewrite M.
  - constructor; [exists d; split; reflexivity|exact R1].
Qed.

(** Proved part: mixtures of leaves.  Missing: components that are sum or product units; the statement is false for them. *)
Theorem C75_from_unit_partial (g : graph dist) u ts : wf g -> unfolds g u (PSum ts) -> Forall (fun wt => is_leaf (snd wt)) ts ->
  exists cpd, from_unit g u = Some cpd /\ map fst cpd = zrange (length ts) /\
    Forall2 (fun kh wt => layered_circuit (snd kh) (snd wt) /\ forall x, likelihood_at (snd kh) x (lik (snd wt) x)) cpd ts.
Proof.
  intros _ U L. destruct (from_unit_leaves g u ts U L) as (cpd & E & M & F). exists cpd. split; [exact E|]. split; [exact M|].
  eapply Forall2_impl_in; [|exact F]. cbn beta. intros kh wt _ _ (d & -> & ->). split; [apply one_leaf_layered|]. intros x. apply likelihood_at_lik; [apply one_leaf_layered|exact I].
Qed.
Print Assumptions C75_from_unit_partial.

(** ** A mixture as a Bayesian network: its latent variable [lv] as root, the mixture's components below it *)
Definition mixture_network (lv v : nat) (A : evset) (ws : list R) (trees : list (Z * pc dist)) : hnetwork :=
  mkHNet lv (zrange (length ws)) (combine (zrange (length ws)) ws) [HCircuit [(v, A)] trees].

Definition at_state (lv : nat) (k : nat) (x : nat -> R) : nat -> R := fun u => if (u =? lv)%nat then IZR (Z.of_nat k) else x u.

Lemma combine_keys {A B} (l : list A) (m : list B) : length l = length m -> map fst (combine l m) = l.
Proof. revert m. induction l as [|a l IH]; intros [|b m] H; try discriminate; [reflexivity|]. cbn. f_equal. apply IH. now injection H. Qed.
Lemma combine_vals {A B} (l : list A) (m : list B) : length l = length m -> map snd (combine l m) = m.
Proof. revert m. induction l as [|a l IH]; intros [|b m] H; try discriminate; [reflexivity|]. cbn. f_equal. apply IH. now injection H. Qed.

Lemma dget_seq (ws : list R) : forall k i, (i < length ws)%nat -> dget (combine (map Z.of_nat (seq k (length ws))) ws) (Z.of_nat (k + i)) = nth i ws 0.
Proof.
  induction ws as [|w ws IH]; intros k i Hi; [cbn in Hi; lia|]. cbn [length seq map combine]. unfold dget. cbn [find fst snd].
  destruct i as [|i].
  - rewrite Nat.add_0_r, Z.eqb_refl. reflexivity.
  - destruct (Z.eqb_spec (Z.of_nat k) (Z.of_nat (k + S i))) as [E|_]; [lia|]. cbn [nth]. rewrite <- (IH (S k) i) by (cbn in Hi; lia). now replace (k + S i)%nat with (S k + i)%nat by lia.
Qed.

Lemma Rsum_one n (f : nat -> R) k : (k < n)%nat -> (forall i, (i < n)%nat -> i <> k -> f i = 0) -> Rsum (map f (seq 0 n)) = f k.
Proof.
  intros Hk Hz. assert (G : forall m a, (a <= k < a + m)%nat -> (forall i, (a <= i < a + m)%nat -> i <> k -> f i = 0) -> Rsum (map f (seq a m)) = f k).
  { induction m as [|m IH]; intros a H1 H2; [lia|]. cbn [seq map]. unfold Rsum. cbn [fold_right]. change (fold_right Rplus 0 (map f (seq (S a) m))) with (Rsum (map f (seq (S a) m))).
    destruct (Nat.eq_dec a k) as [->|N].
    - assert (Z : Rsum (map f (seq (S k) m)) = 0); [|rewrite Z; ring]. rewrite (Rsum_ext f (fun _ => 0)); [|intros i Hi; apply in_seq in Hi; apply H2; lia].
      clear. induction (seq (S k) m) as [|? ? IH]; [reflexivity|]. unfold Rsum in *. cbn [map fold_right]. rewrite IH. ring.
    - rewrite (H2 a) by lia. rewrite (IH (S a)); [ring|lia|intros; apply H2; lia]. }
  apply G; [lia|]. intros i Hi. apply Hz. lia.
Qed.

(** Proved part: the circuit of the network of a mixture of leaves has the mixture's components as its slices, so that summing
    over the latent variable gives the mixture.  [ts]: at least two components over the variable [v] with domain [A], with
    positive weights. *)
Theorem C75_mixture_partial (g : graph dist) u ts lv v A cpd trees :
  wf g -> unfolds g u (PSum ts) -> (2 <= length ts)%nat -> convex (map (fun wt => fst wt) ts) ->
  Forall (fun wt => exists d, snd wt = PLeaf d /\ dvar d = v /\ dist_ok d /\ whole d A) ts -> Forall (fun wt => exists r, fst wt = Fin r) ts -> lv <> v ->
  from_unit g u = Some cpd -> Forall2 (fun kh kt => fst kt = fst kh /\ layered_circuit (snd kh) (snd kt)) cpd trees ->
  exists G, hybrid_circuit (mixture_network lv v A (map (fun wt => wexp (fst wt)) ts) trees) = Some G /\
    forall x, (forall k, (k < length ts)%nat -> likelihood_at G (at_state lv k x) (Fin (wexp (fst (nth k ts (NInf, PSum []))) * likR (snd (nth k ts (NInf, PSum []))) x))) /\
      Rsum (map (fun k => wexp (fst (nth k ts (NInf, PSum []))) * likR (snd (nth k ts (NInf, PSum []))) x) (seq 0 (length ts))) = likR (PSum ts) x.
Proof.
  intros Hwf U H2 [_ Hsum] Hts Hfin Hne E Htr. set (ws := map (fun wt => wexp (fst wt)) ts).
  assert (Hl : Forall (fun wt => is_leaf (snd wt)) ts) by (rewrite Forall_forall in *; intros wt Hin; destruct (Hts wt Hin) as (d & -> & _); exact I).
  destruct (from_unit_leaves g u ts U Hl) as (cpd' & E' & M & F). assert (cpd' = cpd) as -> by congruence. clear E'.
  assert (Lc : length cpd = length ts) by (eapply Forall2_length_eq; exact F).
  assert (Lw : length ws = length ts) by (unfold ws; apply map_length).
  assert (K : map fst trees = zrange (length ts)).
  { rewrite <- M. clear - Htr. induction Htr as [|kh kt l m [H _] _ IH]; [reflexivity|]. cbn [map]. now rewrite H, IH. }
  assert (T : Forall2 (fun kt wt => snd kt = snd wt) trees ts).
  { clear - Htr F. revert ts F. induction Htr as [|kh kt l m [_ H] _ IH]; intros ts F; inversion F as [|? wt ? ts' (d & Hd & Hg) F']; subst; constructor; [|now apply IH].
    rewrite Hd. rewrite Hg in H. destruct H as (_ & _ & r & Hr & _ & Hu). destruct (one_leaf_layered d) as (_ & _ & r' & Hr' & _ & Hu'). assert (r' = r) as -> by congruence. exact (unfolds_det _ _ _ Hu _ Hu'). }
  assert (Lt : length trees = length ts) by (eapply Forall2_length_eq; exact T).
  assert (Tn : forall k dk, (k < length ts)%nat -> snd (nth k trees (0%Z, PSum [])) = snd (nth k ts dk)).
  { intros k dk Hk. clear - T Hk. revert k Hk. induction T as [|a b l m H T IH]; intros k Hk; [cbn in Hk; lia|]. destruct k as [|k]; [exact H|]. cbn [nth]. apply IH. cbn in Hk. lia. }
  assert (TL : Forall (fun kt => exists d, snd kt = PLeaf d /\ dvar d = v /\ dist_ok d /\ whole d A) trees).
  { clear - T Hts. induction T as [|a b l m H T IH]; constructor; inversion Hts; subst; auto. now rewrite H. }
  assert (Ck : keys (combine (zrange (length ws)) ws) = zrange (length ws)) by (apply combine_keys, zrange_length).
  assert (Cv : vals (combine (zrange (length ws)) ws) = ws) by (apply combine_vals, zrange_length).
  assert (Hpos : forall k, (k < length ts)%nat -> 0 < wexp (fst (nth k ts (NInf, PSum [])))).
  { intros k Hk. rewrite Forall_forall in Hfin. destruct (Hfin _ (nth_In ts (NInf, PSum []) Hk)) as (r & ->). apply exp_pos. }
  assert (Wn : forall k, (k < length ts)%nat -> dget (combine (zrange (length ws)) ws) (Z.of_nat k) = wexp (fst (nth k ts (NInf, PSum [])))).
  { intros k Hk. unfold zrange. assert (X := dget_seq ws 0 k). rewrite Nat.add_0_l in X. rewrite X by lia. unfold ws. change 0 with (wexp (fst (NInf, PSum (D := dist) []))) at 1. now rewrite (map_nth (fun wt : num * pc dist => wexp (fst wt))). }
  set (b := mixture_network lv v A ws trees).
  destruct (C74_hybrid_network_partial b) as (G & t & EG & _ & _ & _ & _ & L).
  - unfold hnetwork_ok, b. cbn [mixture_network hn_dom hn_probs hn_children hn_var]. split; [apply zrange_NoDup|]. split; [intros X; apply (f_equal (@length Z)) in X; rewrite zrange_length in X; cbn in X; lia|].
    split; [|split].
    + split; [split; [rewrite Ck; apply zrange_NoDup|]|split; [rewrite Ck; intros k Hk; exact Hk|]].
      * rewrite Cv. apply Forall_forall. intros q Hq. apply in_map_iff in Hq. destruct Hq as (wt & <- & _). unfold wexp. destruct (fst wt); try lra. left. apply exp_pos.
      * rewrite Cv. unfold ws. rewrite map_map in Hsum. exact Hsum.
    + constructor; [|constructor]. cbn [hnode_ok]. rewrite K, <- Lw. split; [apply zrange_NoDup|]. split; [tauto|].
      eapply Forall_impl; [|exact TL]. intros kt (d & -> & Hv & Hok & Hw). split; [exact I|]. split; [exact I|]. split; [exact I|]. split; [exact I|]. split; [exact Hok|]. split.
      * cbn [all_leaves]. intros B [X|[]]. assert (B = A) as -> by congruence. exact Hw.
      * intros y. cbn. rewrite Hv. tauto.
    + cbn. constructor; [intros [X|[]]; now apply Hne|repeat constructor; intros []].
  - unfold hnetwork_readable, b. cbn [mixture_network hn_dom hn_probs hn_children hn_var]. rewrite zrange_length. split; [reflexivity|]. split.
    + intros k Hk. apply zrange_In in Hk. destruct Hk as (i & Hi & ->). rewrite Wn by lia. apply Hpos. lia.
    + constructor; [|constructor]. cbn [hreadable]. rewrite zrange_length. split; [lia|]. eapply Forall_impl; [|exact TL]. intros kt (d & -> & _). split; [exact I|reflexivity].
  - unfold b. cbn [mixture_network hn_dom hn_children]. constructor; [|constructor]. cbn [hordered]. now rewrite K, Lw.
  - discriminate.
  - exists G. split; [exact EG|]. intros x. split.
    + intros k Hk. specialize (L (at_state lv k x)).
      assert (V : hjoint b (at_state lv k x) = wexp (fst (nth k ts (NInf, PSum []))) * likR (snd (nth k ts (NInf, PSum []))) x); [|rewrite <- V; exact L].
      unfold hjoint, b. cbn [mixture_network hn_dom hn_probs hn_children hn_var]. rewrite Lw.
      rewrite (zrange_sum _ (fun j => ind (Reqb (at_state lv k x lv) (IZR j)) * (dget (combine (zrange (length ts)) ws) j * Rprod (map (fun c => hbelow (at_state lv k x) c j) [HCircuit [(v, A)] trees])))).
      rewrite (Rsum_one (length ts) _ k Hk).
      * unfold at_state at 1. rewrite Nat.eqb_refl, Reqb_IZR, Z.eqb_refl. unfold ind. rewrite <- Lw at 1. rewrite Wn by exact Hk. unfold Rprod. cbn [map fold_right hbelow].
        assert (KK : map fst trees = zrange (length ts)) by exact K. rewrite (find_placed trees (length ts) (Z.of_nat k) KK) by (apply zrange_In; eauto). rewrite Nat2Z.id.
        rewrite (nth_indep _ none (0%Z, PSum [])) by lia. rewrite (Tn k (NInf, PSum []) Hk).
        rewrite Forall_forall in Hts. destruct (Hts _ (nth_In ts (NInf, PSum []) Hk)) as (d & -> & Hv & _).
        assert (X : likR (PLeaf d) (at_state lv k x) = likR (PLeaf d) x); [|rewrite X; ring].
        unfold likR. cbn [semR]. unfold at_state. rewrite Hv. destruct (Nat.eqb_spec v lv) as [Ev|_]; [exfalso; now apply Hne|reflexivity].
      * intros i Hi Ni. unfold at_state at 1. rewrite Nat.eqb_refl, Reqb_IZR. destruct (Z.eqb_spec (Z.of_nat k) (Z.of_nat i)) as [X|_]; [lia|]. unfold ind. ring.
    + clear. set (f := fun wt : num * pc dist => wexp (fst wt) * likR (snd wt) x). change (Rsum (map (fun k => f (nth k ts (NInf, PSum []))) (seq 0 (length ts))) = Rsum (map f ts)). f_equal.
      induction ts as [|wt ts IH]; [reflexivity|]. cbn [length seq map nth]. f_equal. rewrite <- seq_shift, map_map. exact IH.
Qed.
Print Assumptions C75_mixture_partial.

(** ** Where it fails: components that are not leaves lose everything below them *)
Definition pair_of (a b : R) : pc dist := PProd [PLeaf (DUnif 0 (mkSint (Fin a) (Fin (a + 1)) true true)); PLeaf (DUnif 1 (mkSint (Fin b) (Fin (b + 1)) true true))].
Definition pairs : pc dist := PSum [(Fin (ln (1 / 2)), pair_of 0 0); (Fin (ln (1 / 2)), pair_of 2 2)].

Lemma pairs_unfold : unfolds (layout pairs) 0%nat pairs.
Proof. apply layout_unfolds. cbn. split; [discriminate|repeat constructor]. Qed.

(** The copy of a product unit has no factors: its density is one everywhere. *)
Theorem C75_refuted : ~ C75_full.
Proof.
  intros H. destruct (H (layout pairs) 0%nat [(Fin (ln (1 / 2)), pair_of 0 0); (Fin (ln (1 / 2)), pair_of 2 2)]) as (cpd & E & _ & F).
  - destruct (layout_layered pairs) as (W & _); [cbn; split; [discriminate|repeat constructor]|exact W].
  - exact pairs_unfold.
  - repeat constructor.
  - inversion F as [|kh ? l ? L _]; subst. cbn [snd] in L. unfold from_unit in E. vm_compute in E. injection E as <- _. cbn [snd] in L.
    assert (P : layered_circuit (mkGraph [(0%nat, UProd)] []) (PProd (D := dist) [])).
    { split; [|split].
      - constructor; cbn; [repeat constructor; intros []|constructor|intros e []|intros e []].
      - intros e d' [].
      - exists 0%nat. split; [reflexivity|]. split; [exists (fun _ => 0%nat); split; [reflexivity|intros e []]|]. constructor; [reflexivity|constructor]. }
    assert (X := likelihood_at_det _ _ _ _ P I (L (fun _ => 5))). revert X. unfold lik, pair_of. cbn. unfold in_sint, above, Interval.below. cbn.
    repeat match goal with |- context [Rleb ?a ?b] => destruct (Rleb_spec a b); try lra | |- context [Rltb ?a ?b] => destruct (Rltb_spec a b); try lra end. cbn. intros X. injection X. lra.
Qed.
Print Assumptions C75_refuted.

(** ** Case: a mixture of two uniform distributions becomes a network and a circuit *)
Example C75_case : exists cpd G, from_unit (layout (PSum [(nlog (Fin (1 / 4)), band 0); (nlog (Fin (3 / 4)), band 2)])) 0%nat = Some cpd /\ map fst cpd = [0; 1]%Z /\
  hybrid_circuit (mixture_network 0 1 (EInt [ireals]) [1 / 4; 3 / 4] [(0%Z, band 0); (1%Z, band 2)]) = Some G /\ likelihood_at G (fun v => if (v =? 0)%nat then 1 else 5 / 2) (Fin (3 / 4)).
Proof.
  set (ts := [(nlog (Fin (1 / 4)), band 0); (nlog (Fin (3 / 4)), band 2)]).
  assert (Hu : unfolds (layout (PSum ts)) 0%nat (PSum ts)) by (apply layout_unfolds; cbn; split; [discriminate|repeat constructor]).
  assert (Hw : wf (layout (PSum ts))) by (destruct (layout_layered (PSum ts)) as (W & _); [cbn; split; [discriminate|repeat constructor]|exact W]).
  assert (W1 : wexp (nlog (Fin (1 / 4))) = 1 / 4) by (rewrite nlog_Fin_pos by lra; cbn; apply exp_ln; lra).
  assert (W2 : wexp (nlog (Fin (3 / 4))) = 3 / 4) by (rewrite nlog_Fin_pos by lra; cbn; apply exp_ln; lra).
  destruct (from_unit_leaves (layout (PSum ts)) 0%nat ts Hu) as (cpd & E & M & F); [repeat constructor|].
  assert (T : Forall2 (fun kh kt => fst kt = fst kh /\ layered_circuit (snd kh) (snd kt)) cpd [(0%Z, band 0); (1%Z, band 2)]).
  { clear - M F. inversion F as [|k1 ? l1 ? (d1 & H1 & G1) F1]; subst. inversion F1 as [|k2 ? l2 ? (d2 & H2 & G2) F2]; subst. inversion F2; subst. cbn in M. injection M as M1 M2.
    constructor; [|constructor; [|constructor]]; (split; [now symmetry|]); [rewrite G1|rewrite G2]; cbn [snd] in *; [rewrite H1|rewrite H2]; apply one_leaf_layered. }
  destruct (C75_mixture_partial (layout (PSum ts)) 0%nat ts 0 1 (EInt [ireals]) cpd [(0%Z, band 0); (1%Z, band 2)] Hw Hu) as (G & EG & L); auto.
  - split; [cbn [map ts fst]; constructor; [rewrite nlog_Fin_pos by lra; exact I|constructor; [rewrite nlog_Fin_pos by lra; exact I|constructor]]|]. unfold ts. cbn [map fst]. rewrite W1, W2. cbn. lra.
  - constructor; [|constructor; [|constructor]]; (eexists; split; [reflexivity|]; split; [reflexivity|]; split; [|reflexivity]); [exists 0, (0 + 1)|exists 2, (2 + 1)]; repeat split; lra.
  - constructor; [|constructor; [|constructor]]; cbn [fst]; rewrite nlog_Fin_pos by lra; eauto.
  - exists cpd, G. split; [exact E|]. split; [exact M|]. unfold ts in EG. cbn [map fst] in EG. rewrite W1, W2 in EG. split; [exact EG|].
    destruct (L (fun _ => 5 / 2)) as [L1 _]. assert (X := L1 1%nat (le_n 2)). unfold ts in X. cbn [nth fst snd] in X. rewrite W2, band_value in X. unfold in_sint, above, Interval.below in X. cbn in X.
    revert X. repeat match goal with |- context [Rleb ?a ?b] => destruct (Rleb_spec a b); try lra end. cbn. rewrite Rmult_1_r. auto.
Qed.
