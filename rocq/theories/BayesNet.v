(** * BayesNet: messages without evidence, and the interaction terms *)
From Coq Require Import List Arith Bool Lia ZArith Reals Lra Permutation.
From Verif Require Import Num Graph GraphFacts Spec SpecFacts Circuit EvalFacts Interval Dist DistFacts TreeProb Simplify Conditional Restrict Copy Heap PropertiesDist PropertiesQuery PropertiesProb
  PropertiesMarginal FromMixture Multinomial MultinomialFacts ModeFacts Layout LayoutFacts Mixture Interaction TreeLocal MountTree Bayes BayesFacts PropertiesForward.
Import ListNotations.
Local Set Bullet Behavior "Strict Subproofs".
Local Open Scope R_scope.

(** ** Messages *)

(** A message over the states 0, ..., n-1 in this order, all of them possible. *)
Definition msg_full (n : nat) (m : dict) : Prop :=
  (0 < n)%nat /\ dict_ok m /\ keys m = zrange n /\ Rsum (vals m) = 1 /\ forall k, In k (zrange n) -> 0 < dget m k.

Lemma zrange_In n k : In k (zrange n) <-> exists i, (i < n)%nat /\ k = Z.of_nat i.
Proof.
  unfold zrange. rewrite in_map_iff. split.
  - intros (i & <- & H). apply in_seq in H. exists i. split; [lia|reflexivity].
  - intros (i & H & ->). exists i. split; [reflexivity|]. apply in_seq. lia.
Qed.

Lemma zrange_NoDup n : NoDup (zrange n).
Proof. apply FinFun.Injective_map_NoDup; [intros a b; lia|apply seq_NoDup]. Qed.

Lemma zrange_length n : length (zrange n) = n.
Proof. unfold zrange. now rewrite map_length, seq_length. Qed.

Lemma zrange_sum n (f : Z -> R) : Rsum (map f (zrange n)) = Rsum (map (fun i => f (Z.of_nat i)) (seq 0 n)).
Proof. unfold zrange. now rewrite map_map. Qed.

Lemma filter_all {A} (f : A -> bool) l : (forall a, In a l -> f a = true) -> filter f l = l.
Proof. induction l as [|a l IH]; intros H; [reflexivity|]. cbn. rewrite (H a) by now left. f_equal. apply IH. intros; apply H; now right. Qed.

Lemma distribution_mass dom p : NoDup dom -> distribution_over dom p -> pmass p dom = 1.
Proof. intros N (Ho & Hi & Hs). rewrite <- Hs. symmetry. unfold pmass. apply vals_sum; auto. apply Ho. Qed.

Lemma root_message n p : (0 < n)%nat -> distribution_over (zrange n) p -> (forall k, In k (zrange n) -> 0 < dget p k) ->
  exists m fp, root_forward p (zrange n) = (Some m, fp) /\ msg_full n m /\ forall k, dget m k = dget p k.
Proof.
  intros Hn Hd Hpos. assert (M := distribution_mass _ _ (zrange_NoDup n) Hd). destruct Hd as (Ho & Hi & Hs). unfold root_forward.
  destruct (conditional_spec p (zrange n) Ho (zrange_NoDup n)) as [(Z & _)|(_ & c & E & Hc & Hc1 & G & K)]; [lra|].
  rewrite E. eexists _, _. split; [reflexivity|].
  assert (G' : forall k, dget c k = dget p k).
  { intros k. rewrite G, M. destruct (in_dec Z.eq_dec k (zrange n)) as [Hk|Hk]; [rewrite ev_ind_in by auto; field|]. rewrite ev_ind_out by auto.
    rewrite (dget_absent p k); [field|]. intros X. apply Hk. now apply Hi. }
  split; [|exact G']. split; [exact Hn|]. split; [exact Hc|]. split; [|split; [exact Hc1|]].
  - rewrite K. apply filter_all. intros k Hk. destruct (Rltb_spec 0 (dget p k)); [reflexivity|]. specialize (Hpos k Hk). lra.
  - intros k Hk. rewrite G'. auto.
Qed.

Lemma loop_keys m cpd ev pev : dict_ok m -> NoDup ev -> rows_ok cpd pev -> forall acc fp p fp', keys acc = ev ->
  foldM (parent_turn m cpd ev) pev (acc, fp) = Some (p, fp') -> keys p = ev.
Proof.
  intros Hm Hev. induction pev as [|s pev IH]; intros Hr acc fp p fp' Ha E; cbn [foldM] in E.
  - injection E as <- _. exact Ha.
  - assert (Hr' : rows_ok cpd pev) by (intros x Hx; apply Hr; now right). destruct (Hr s) as (row & Er & Ho); [now left|].
    unfold parent_turn at 1 in E. destruct (Reqb (dget m s) 0); [eapply IH; eauto|]. rewrite Er in E.
    destruct (conditional_spec row ev Ho Hev) as [(Z & Ec)|(Pos & c & Ec & Hc & Hc1 & Gc & Kc)]; rewrite Ec in E; [eapply IH; eauto|].
    cbn [fst snd] in E. eapply IH in E; eauto. rewrite add_entries_keys; [exact Ha|]. rewrite Ha, Kc. intros k Hk. apply filter_In in Hk. tauto.
Qed.

(** Without evidence: the message of a table whose first row is positive. *)
Lemma cpt_message np m n cpd cs v : msg_full np m -> (0 < n)%nat -> cpt_ok (zrange np) (CPT v (zrange n) cpd cs) ->
  (forall k, In k (zrange n) -> 0 < tab cpd 0 k) ->
  exists m' fp, cpt_forward (Some m) cpd (zrange np) (zrange n) = Some (Some m', fp) /\ msg_full n m'.
Proof.
  intros (Hnp & Hm & Km & Sm & Pm) Hn Hok Hfirst.
  assert (Hr : rows_ok cpd (zrange np)) by (intros s Hs; destruct (cpt_row _ _ _ _ _ s Hok Hs) as (row & E & H & _); eauto).
  assert (TM : forall s, In s (zrange np) -> tmass cpd s (zrange n) = 1).
  { intros s Hs. destruct (cpt_row _ _ _ _ _ s Hok Hs) as (row & E & H). rewrite (tmass_row cpd s row) by auto. apply distribution_mass; [apply zrange_NoDup|auto]. }
  assert (MS : Rsum (map (dget m) (zrange np)) = 1). { rewrite <- Sm. symmetry. apply vals_sum; try apply zrange_NoDup; try apply Hm. rewrite Km. intros x Hx. exact Hx. }
  destruct (cpt_forward_spec m cpd (zrange np) (zrange n) Hm (zrange_NoDup n) Hr) as (msg & E & Hmsg). cbn zeta in Hmsg.
  assert (RW : forall k, In k (zrange n) -> raw m cpd (zrange np) (zrange n) k = Rsum (map (fun s => dget m s * tab cpd s k) (zrange np))).
  { intros k Hk. unfold raw. apply Rsum_ext. intros s Hs. unfold share. rewrite TM, ev_ind_in by auto. field. }
  assert (Z1 : Rsum (map (raw m cpd (zrange np) (zrange n)) (zrange n)) = 1).
  { rewrite (Rsum_ext _ (fun k => Rsum (map (fun s => dget m s * tab cpd s k) (zrange np)))) by auto. rewrite Rsum_swap.
    rewrite (Rsum_ext _ (dget m)); [exact MS|]. intros s Hs. rewrite Rsum_scal. fold (tmass cpd s (zrange n)). rewrite TM by auto. ring. }
  rewrite Z1 in Hmsg. destruct Hmsg as [(X & _)|(_ & m' & -> & Hm' & S' & _ & G)]; [lra|].
  exists m'. eexists. split; [exact E|]. split; [exact Hn|]. split; [exact Hm'|]. split; [|split; [exact S'|]].
  - assert (Z0 : zrange np = 0%Z :: map Z.of_nat (seq 1 (np - 1))) by (unfold zrange; destruct np; [lia|]; cbn [seq map]; now rewrite Nat.sub_succ, Nat.sub_0_r).
    assert (In0 : In 0%Z (zrange np)) by (rewrite Z0; now left).
    unfold cpt_forward in E. destruct (foldM (parent_turn m cpd (zrange n)) (zrange np) _) as [[p fp]|] eqn:F; [|discriminate].
    destruct (Reqb (Rsum (vals p)) 0); [discriminate|]. assert (E' : dnormalize p = m') by congruence. subst m'.
    assert (keys p = zrange n) as Kp; [|unfold dnormalize, keys in *; now rewrite map_map].
    rewrite Z0 in F. cbn [foldM] in F. unfold parent_turn at 1 in F. specialize (Pm 0%Z In0).
    destruct (Reqb_spec (dget m 0) 0); [lra|]. destruct (Hr 0%Z In0) as (row & Er & Ho). rewrite Er in F.
    destruct (conditional_spec row (zrange n) Ho (zrange_NoDup n)) as [(Z & _)|(Pos & c & Ec & Hc & Hc1 & Gc & Kc)].
    { specialize (TM 0%Z In0). rewrite (tmass_row cpd 0%Z row) in TM by auto. lra. }
    rewrite Ec in F. cbn [fst snd] in F. eapply loop_keys in F; eauto; [apply zrange_NoDup| |].
    + intros s Hs. apply Hr. rewrite Z0. now right.
    + rewrite add_entries_new; [|apply Hc|intros k _ []]. cbn [keys map app]. fold (keys c). rewrite Kc. apply filter_all.
      intros k Hk. specialize (Hfirst k Hk). rewrite (tab_row cpd 0%Z row) in Hfirst by auto. destruct (Rltb_spec 0 (dget row k)); [reflexivity|lra].
  - intros k Hk. rewrite G, RW by auto. unfold Rdiv. rewrite Rinv_1, Rmult_1_r. assert (In0 : In 0%Z (zrange np)) by (apply zrange_In; exists 0%nat; split; [lia|reflexivity]).
    apply Rsum_nonneg_pos.
    + apply Forall_map. apply Forall_forall. intros s Hs. apply Rmult_le_pos; [left; auto|]. destruct (Hr s Hs) as (row & Er & Ho). rewrite (tab_row cpd s row) by auto. now apply dget_nonneg.
    + apply Exists_exists. exists (dget m 0 * tab cpd 0 k). split; [apply (in_map (fun s => dget m s * tab cpd s k) _ _ In0)|]. apply Rmult_lt_0_compat; auto.
Qed.

(** ** The interaction term *)
Definition point (v : nat) (k : Z) : dist := DSym v [(k, 1)].

Lemma singleton_conditional p k : 0 < dget p k -> sym_log_conditional p [k] = (Some [(k, 1)], nlog (Fin (dget p k))).
Proof.
  intros H. unfold sym_log_conditional, sym_cond_dict. cbn [filter]. destruct (Rltb_spec 0 (dget p k)); [|lra]. cbn [map vals snd]. unfold vals. cbn [map snd]. unfold Rsum. cbn [fold_right]. rewrite Rplus_0_r.
  destruct (Reqb_spec (dget p k) 0); [lra|]. unfold dnormalize, vals. cbn [map fst snd]. unfold Rsum. cbn [fold_right]. rewrite Rplus_0_r.
  do 4 f_equal. field. lra.
Qed.

Lemma state_leaf_spec dom k : NoDup dom -> In k dom -> state_leaf dom k = Some [(k, 1)].
Proof.
  intros N Hk. unfold state_leaf. assert (existsb (Z.eqb k) dom = true) as -> by now apply existsb_Zeqb.
  assert (G : dget (map (fun z => (z, 1 / INR (length dom))) dom) k = 1 / INR (length dom)).
  { apply dget_In; [unfold keys; rewrite map_map; cbn [fst]; now rewrite map_id|]. now apply (in_map (fun z => (z, 1 / INR (length dom)))). }
  rewrite singleton_conditional; [reflexivity|]. rewrite G. unfold Rdiv. rewrite Rmult_1_l. apply Rinv_0_lt_compat. apply lt_0_INR. destruct dom; [destruct Hk|cbn; lia].
Qed.

(** The terms of the interaction circuit. *)
Definition term (pm : dict) (s : Z) (kq : Z * R) : num * list dist := (nadd (nlog (Fin (dget pm s))) (nlog (Fin (snd kq))), [point 0 s; point 1 (fst kq)]).
Definition terms (pm : dict) (cpd : list (Z * dict)) : list (num * list dist) := flat_map (fun kr => map (term pm (fst kr)) (snd kr)) cpd.

Lemma mapM_some {A B} (f : A -> option B) (h : A -> B) l : (forall a, In a l -> f a = Some (h a)) -> mapM f l = Some (map h l).
Proof.
  unfold mapM. induction l as [|a l IH]; intros H; [reflexivity|]. cbn [map fold_right]. rewrite IH by (intros; apply H; now right). rewrite (H a) by now left. reflexivity.
Qed.

Lemma interaction_terms np pm v n cpd cs : msg_full np pm -> cpt_ok (zrange np) (CPT v (zrange n) cpd cs) ->
  interaction_term (zrange np) pm (zrange n) cpd = Some (sop (terms pm cpd)).
Proof.
  intros (Hnp & Hm & Km & Sm & Pm) (_ & _ & N & K & F & _). unfold interaction_term. rewrite Forall_forall in F.
  rewrite (mapM_some _ (fun kr => map (term pm (fst kr)) (snd kr))).
  - unfold terms, sop. now rewrite flat_map_concat_map.
  - intros [s row] Hkr. assert (Hs : In s (zrange np)) by (apply K; exact (in_map fst _ _ Hkr)). unfold row_terms. cbn [fst snd].
    assert (existsb (Z.eqb s) (zrange np) = true) as -> by now apply existsb_Zeqb. cbn [negb]. rewrite singleton_conditional by auto.
    apply mapM_some. intros kq Hkq. destruct (F _ Hkr) as (_ & Hi & _). rewrite state_leaf_spec; [reflexivity|apply zrange_NoDup|]. apply Hi. now apply in_map.
Qed.

Lemma layout_layered {D} (t : pc D) : sums_nonempty t -> layered_circuit (layout t) t.
Proof.
  intros H. assert (T := layout_tree t). split; [apply T|]. split; [apply layout_leaves_terminal|]. exists 0%nat.
  split; [now apply tree_root|]. split; [now apply tree_graded|now apply layout_unfolds].
Qed.

Lemma term_weight pm s q : 0 < dget pm s -> 0 <= q -> lw_ok (nadd (nlog (Fin (dget pm s))) (nlog (Fin q))) /\ wexp (nadd (nlog (Fin (dget pm s))) (nlog (Fin q))) = dget pm s * q.
Proof.
  intros Hp Hq. destruct (Req_dec q 0) as [->|NZ].
  - assert (nlog (Fin 0) = NInf) as -> by (cbn; destruct (total_order_T 0 0) as [[H|H]|H]; try lra; reflexivity).
    assert (nlog (Fin (dget pm s)) = Fin (ln (dget pm s))) as -> by (cbn; destruct (total_order_T (dget pm s) 0) as [[H|H]|H]; try lra; reflexivity). cbn. split; [exact I|ring].
  - assert (nlog (Fin (dget pm s)) = Fin (ln (dget pm s))) as -> by (cbn; destruct (total_order_T (dget pm s) 0) as [[H|H]|H]; try lra; reflexivity).
    assert (nlog (Fin q) = Fin (ln q)) as -> by (cbn; destruct (total_order_T q 0) as [[H|H]|H]; try lra; reflexivity). cbn. split; [exact I|]. rewrite exp_plus, !exp_ln by lra. ring.
Qed.

Lemma point_prob v k l : probR (point v k) (ESym l) = ev_ind l k.
Proof. unfold point. cbn [probR map fst snd]. unfold Rsum. cbn [fold_right]. rewrite in_esym. unfold ev_ind. ring. Qed.

(** What the interaction term answers, where the parent is in state [i] and the node in one of the states in [J]. *)
Lemma ask_terms np pm v n cpd cs (e : sevent) i J : msg_full np pm -> cpt_ok (zrange np) (CPT v (zrange n) cpd cs) ->
  e 0%nat = ESym [i] -> e 1%nat = ESym J -> In i (zrange np) -> NoDup J ->
  ask (sop (terms pm cpd)) e = Some (Fin (dget pm i * tmass cpd i J)).
Proof.
  intros HM Hok E0 E1 Hi HJ. assert (Hok' := Hok). destruct HM as (Hnp & Hm & Km & Sm & Pm). destruct Hok as (_ & _ & N & K & F & _). rewrite Forall_forall in F.
  assert (InT : forall wl, In wl (terms pm cpd) -> exists s row kq, In (s, row) cpd /\ In kq row /\ wl = term pm s kq).
  { intros wl H. apply in_flat_map in H. destruct H as ((s & row) & Hs & H). apply in_map_iff in H. destruct H as (kq & <- & Hkq). exists s, row, kq. auto. }
  assert (W : forall s row kq, In (s, row) cpd -> In kq row -> 0 < dget pm s /\ 0 <= snd kq).
  { intros s row kq Hs Hkq. split; [apply Pm, K; exact (in_map fst _ _ Hs)|]. destruct (F _ Hs) as ((_ & Hv) & _). cbn [snd] in Hv. unfold vals in Hv. rewrite Forall_map, Forall_forall in Hv. auto. }
  assert (Hne : terms pm cpd <> []).
  { destruct (cpt_row _ _ _ _ _ i Hok' Hi) as (row & Er & _ & _ & Hs). intros X.
    assert (Hin : In (i, row) cpd). { unfold row_of in Er. destruct (find _ cpd) as [[a b]|] eqn:Ef; [|discriminate]. apply find_some in Ef. destruct Ef as [Ef Eq]. cbn in Eq, Er. apply Z.eqb_eq in Eq. subst a. congruence. }
    destruct row as [|kq row]; [cbn in Hs; lra|]. assert (In (term pm i kq) (terms pm cpd)); [|rewrite X in H; destruct H].
    apply in_flat_map. exists (i, kq :: row). split; [exact Hin|]. now left. }
  assert (A := answers_semR (layout (sop (terms pm cpd))) (sop (terms pm cpd)) e).
  destruct A with (st := @empty_store num) as (st' & A').
  - apply layout_layered. now apply sop_sums_nonempty.
  - apply sop_sums. apply Forall_map. apply Forall_forall. intros wl Hwl. destruct (InT wl Hwl) as (s & row & kq & Hs & Hkq & ->). destruct (W s row kq Hs Hkq). now apply term_weight.
  - apply sop_leaves. apply Forall_forall. intros wl Hwl. destruct (InT wl Hwl) as (s & row & kq & Hs & Hkq & ->).
    assert (P : forall v k, dist_ok (point v k)) by (intros; split; [split|]; [repeat constructor; cbn; tauto|repeat constructor; cbn; lra|cbn; lra]). exact (Forall_cons _ (P 0%nat s) (Forall_cons _ (P 1%nat (fst kq)) (Forall_nil _))).
  - apply sop_leaves. apply Forall_forall. intros wl Hwl. destruct (InT wl Hwl) as (s & row & kq & Hs & Hkq & ->). unfold term, point. cbn [snd].
    repeat constructor; cbn [dvar]; rewrite ?E0, ?E1; cbn; auto. repeat constructor; cbn; tauto.
  - unfold ask. rewrite A'. do 2 f_equal. rewrite sop_semR. unfold terms. rewrite Rsum_flat_map.
    transitivity (Rsum (map (fun kr : Z * dict => ind (Z.eqb (fst kr) i) * (dget pm (fst kr) * pmass (snd kr) J)) cpd)).
    + apply Rsum_ext. intros [s row] Hs. rewrite map_map. cbn [fst snd]. destruct (F _ Hs) as ((Nr & Hv) & _). cbn [snd] in Nr, Hv. unfold pmass. rewrite Rsum_dget by auto.
      rewrite <- Rsum_scal, <- Rsum_scal. apply Rsum_ext. intros kq Hkq. destruct (W s row kq Hs Hkq) as [W1 W2]. unfold term. cbn [fst snd map].
      rewrite (proj2 (term_weight pm s (snd kq) W1 W2)). unfold Rprod. cbn [fold_right]. unfold point at 2 4. cbn [dvar]. rewrite E0, E1, !point_prob. unfold ev_ind. cbn [existsb]. rewrite orb_false_r. ring.
    + destruct (cpt_row _ _ _ _ _ i Hok' Hi) as (row & Er & _).
      assert (Hin : In (i, row) cpd). { unfold row_of in Er. destruct (find _ cpd) as [[a b]|] eqn:Ef; [|discriminate]. apply find_some in Ef. destruct Ef as [Ef Eq]. cbn in Eq, Er. apply Z.eqb_eq in Eq. subst a. congruence. }
      rewrite (Rsum_one _ cpd (i, row)); auto.
      * cbn [fst snd]. rewrite Z.eqb_refl, (tmass_row cpd i row) by auto. unfold ind. ring.
      * eapply NoDup_map_inv. exact N.
      * intros [s r] Hs Ne. cbn [fst snd]. destruct (Z.eqb_spec s i) as [->|]; [|unfold ind; ring]. exfalso. apply Ne. f_equal. apply (row_of_In cpd i r N) in Hs. congruence.
Qed.
