(** * CondPass: invariant of the bottom-up conditioning pass *)
From Coq Require Import List Arith Bool Lia Reals Lra Permutation.
From Verif Require Import Num Graph GraphFacts Spec SpecFacts Circuit EvalFacts Simplify SimplifyFacts TreeLocal NormalizeFacts
  Restrict Conditional ConditionalFacts.
Import ListNotations.

Lemma nexp_zero v : nexp v = Fin 0 -> v = NInf.
Proof. destruct v; cbn; intros E; try discriminate; auto. injection E as E. pose proof (exp_pos r). lra. Qed.

Section Pass.
Context {D : Type}.
Variable lcond : D -> option (lres D).
Variable val : D -> num.           (* the probability of the event under a leaf's distribution *)
Variable dvars : D -> list nat.
Variable Q : D -> Prop.            (* what is known about a conditioned distribution *)
Implicit Types g : graph D.

(** What is assumed of conditioning a single leaf. *)
Definition is_prob (x : num) : Prop := exists y, (0 <= y)%R /\ x = Fin y.

Definition leaf_good (d : D) : Prop := is_prob (val d) /\ exists res, lcond d = Some res /\
  match res with
  | LDead => val d = Fin 0
  | LOne d' lp => nexp lp = val d /\ (val d <> Fin 0 -> Q d') /\ dvars d' = dvars d
  | LMany l lp => nexp lp = val d /\ val d <> Fin 0 /\ l <> [] /\
                  Forall (fun pd => (exists x, fst pd = Fin x) /\ Q (snd pd) /\ dvars (snd pd) = dvars d) l
  end.

Lemma set_kind_ids g u k : node_ids (set_kind g u k) = node_ids g.
Proof.
  unfold node_ids, set_kind. simpl. rewrite map_map. apply map_ext. intros [v k']. simpl. destruct (Nat.eqb_spec v u); subst; auto.
Qed.

Lemma set_kind_same g u k : In u (node_ids g) -> node_kind (set_kind g u k) u = Some k.
Proof.
  unfold node_kind, set_kind, node_ids. simpl. induction (g_nodes g) as [|[v k'] l IH]; simpl; [tauto|]. intros Hin.
  destruct (Nat.eqb_spec v u) as [->|Hne]; simpl.
  - now rewrite Nat.eqb_refl.
  - apply Nat.eqb_neq in Hne. rewrite Hne. apply IH. destruct Hin; [apply Nat.eqb_neq in Hne; congruence|auto].
Qed.

Lemma set_kind_other g u k x : x <> u -> node_kind (set_kind g u k) x = node_kind g x.
Proof.
  intros Hx. unfold node_kind, set_kind. simpl. induction (g_nodes g) as [|[v k'] l IH]; simpl; auto.
  destruct (Nat.eqb_spec v u) as [->|Hne]; simpl.
  - destruct (Nat.eqb_spec u x); [congruence|auto].
  - destruct (v =? x); auto.
Qed.

Lemma set_kind_core g r u d d' : tcore g r -> node_kind g u = Some (ULeaf d) -> tcore (set_kind g u (ULeaf d')) r.
Proof.
  intros [[Hwf [Hac [Hr [Hnd [Hall Htop]]]]] Hlf Hs Hw] Hk.
  assert (Hu : In u (node_ids g)) by (eapply node_kind_ids; eauto).
  assert (Hkk : forall x, node_kind (set_kind g u (ULeaf d')) x = Some USum -> node_kind g x = Some USum).
  { intros x Hx. destruct (Nat.eq_dec x u) as [->|Hne]; [rewrite set_kind_same in Hx by auto; discriminate|]. now rewrite set_kind_other in Hx. }
  constructor.
  - split; [|split; [auto|split; [|split; [auto|split; [|auto]]]]].
    + destruct Hwf. constructor; rewrite ?set_kind_ids; auto.
    + now rewrite set_kind_ids.
    + intros x. rewrite set_kind_ids. auto.
  - intros e d0 He Hk0. destruct (Nat.eq_dec (e_src e) u) as [E|Hne].
    + apply (Hlf e d He). rewrite E. exact Hk.
    + rewrite set_kind_other in Hk0 by auto. now apply (Hlf e d0 He).
  - intros x Hx. apply Hs. auto.
  - intros e He Hx. apply Hw; auto.
Qed.

Lemma set_kind_lcore g r u d d' : lcore g r -> node_kind g u = Some (ULeaf d) -> lcore (set_kind g u (ULeaf d')) r.
Proof.
  intros [Hwf Hac Hroot Hlf Hs Hw] Hk. destruct (root_spec _ _ Hroot) as [Hr Htop].
  assert (Hu : In u (node_ids g)) by (eapply node_kind_ids; eauto).
  assert (Hkk : forall x, node_kind (set_kind g u (ULeaf d')) x = Some USum -> node_kind g x = Some USum).
  { intros x Hx. destruct (Nat.eq_dec x u) as [->|Hne]; [rewrite set_kind_same in Hx by auto; discriminate|]. now rewrite set_kind_other in Hx. }
  assert (Hwf' : wf (set_kind g u (ULeaf d'))) by (destruct Hwf; constructor; rewrite ?set_kind_ids; auto).
  constructor; [exact Hwf'|exact Hac| | | |].
  - apply root_intro; auto.
    + now rewrite set_kind_ids.
    + intros x Hx Hxr. rewrite set_kind_ids in Hx. destruct (in_dec Nat.eq_dec x (map e_dst (g_edges g))) as [Hd|Hd]; [exact Hd|].
      exfalso. apply Hxr. now apply (root_unique g r).
  - intros e d0 He Hk0. destruct (Nat.eq_dec (e_src e) u) as [E|Hne].
    + apply (Hlf e d He). rewrite E. exact Hk.
    + rewrite set_kind_other in Hk0 by auto. now apply (Hlf e d0 He).
  - intros x Hx. apply Hs. auto.
  - intros e He Hx. apply Hw; auto.
Qed.

Lemma tcore_shape : shape (D := D) tcore.
Proof.
  constructor.
  - intros g r H. apply (tk_tree _ _ H).
  - intros g r H. apply (tk_tree _ _ H).
  - intros g r H. apply H.
  - intros g r H. apply H.
  - intros g r H. apply H.
  - intros g r u d d'. apply set_kind_core.
  - intros g r u d nx l ns es H. intros. eapply rep_core; eauto; [apply (tk_tree _ _ H)|apply H].
Qed.

Lemma lcore_shape : shape (D := D) lcore.
Proof.
  constructor.
  - intros g r H. apply H.
  - intros g r H. apply (root_spec g r), H.
  - intros g r H. apply H.
  - intros g r H. apply H.
  - intros g r H. apply H.
  - intros g r u d d'. apply set_kind_lcore.
  - intros g r u d nx l ns es H. intros. eapply rep_lcore; eauto; apply H.
Qed.

Section Inv.
(* the shape of the circuit: [tcore] for trees, [lcore] for circuits with shared units *)
Variable core : graph D -> id -> Prop.
Hypothesis Hshape : shape core.
Variables (g0 : graph D) (r0 : id) (F0 : id -> num) (M0 : id -> nat -> Prop) (order : list id).
Hypothesis Hcore0 : core g0 r0.
Hypothesis HF0 : holds (Lval val F0) g0.
Hypothesis HFn : forall x, is_prob (F0 x).
Hypothesis HM0 : holds (Lscope dvars M0) g0.
Hypothesis Hgood : forall u d, node_kind g0 u = Some (ULeaf d) -> leaf_good d.
Hypothesis Hord : NoDup order.
Hypothesis Htopo : topo_up g0 order.
Hypothesis Hin0 : forall u, In u order -> In u (node_ids g0).

Definition has_result (st : store num) (F : id -> num) (x : id) : Prop := exists v, st x = Some v /\ nexp v = F x.

Record cinv (rest : list id) g (st : store num) (nx : nat) (r : id) (F : id -> num) (M : id -> nat -> Prop) : Prop := {
  i_core : core g r;
  i_lt : forall x, In x (node_ids g) -> x < nx;
  i_lt0 : forall x, In x (node_ids g0) -> x < nx;
  i_rest : forall u, In u rest -> node_kind g u = node_kind g0 u;
  i_kind : forall x k, node_kind g x = Some k -> In x (node_ids g0) -> (forall d, k <> ULeaf d) -> node_kind g0 x = Some k;
  i_perm : forall x, In x (node_ids g) -> In x (node_ids g0) ->
    Permutation (map (fun e => (e_lw e, F (e_dst e))) (out_edges g x)) (map (fun e => (e_lw e, F0 (e_dst e))) (out_edges g0 x));
  i_F : forall x, In x (node_ids g0) -> F x = F0 x;
  i_Fn : forall x, is_prob (F x);
  i_child : forall e, In e (g_edges g) -> In (e_src e) (node_ids g0) ->
    (In (e_dst e) rest /\ In (e_dst e) (subcircuits g0 (e_src e))) \/ has_result st F (e_dst e);
  i_done : forall x k, node_kind g x = Some k -> ~ In x rest ->
    match k with
    | ULeaf d => ((st x = None /\ ~ In x (node_ids g0)) \/ has_result st F x) /\ (st x <> Some NInf -> Q d)
    | _ => has_result st F x
    end;
  i_new : forall x k, node_kind g x = Some k -> ~ In x (node_ids g0) ->
    match k with
    | ULeaf _ => True
    | USum => F x <> Fin 0 /\ forall e, In e (out_edges g x) -> ~ In (e_dst e) (node_ids g0) /\ st (e_dst e) = None
    | UProd => False
    end;
  i_scope : holds (Lscope dvars M) g;
  i_root : (r = r0 \/ (~ In r (node_ids g0) /\ node_kind g r = Some USum)) /\ (In r0 rest -> r = r0) /\ F r = F0 r0 /\ forall v, M r v <-> M0 r0 v
}.

Lemma nexp_log_sum l l' : Forall2 (fun e q => e_lw e = Some (fst q)) l l' -> forall F,
  Forall2 (fun (e : edge) (q : num * num) => nexp (snd q) = F (e_dst e)) l l' ->
  nexp (logsumexp (map (fun p => nadd (fst p) (snd p)) l')) = nsum (map (fun e => nmul (lwN (e_lw e)) (F (e_dst e))) l).
Proof.
  intros H1 F H2. rewrite nexp_logsumexp, map_map. f_equal. induction H1 as [|e q l l' A H1 IH]; auto.
  inversion H2; subst. cbn [map]. rewrite nexp_add, A. cbn [lwN]. rewrite H4. f_equal. auto.
Qed.

Lemma step_inner u rest pre g st nx r F M : order = pre ++ u :: rest -> cinv (u :: rest) g st nx r F M ->
  (forall d, node_kind g0 u <> Some (ULeaf d)) ->
  exists v, unit_conditional lcond (g, st, nx) u = Some (g, upd st u v, nx) /\ cinv rest g (upd st u v) nx r F M.
Proof.
  intros Eo H Hnl. destruct H.
  assert (Hu0 : In u (node_ids g0)) by (apply Hin0; rewrite Eo; apply in_or_app; right; now left).
  assert (Hk : node_kind g u = node_kind g0 u) by (apply i_rest0; now left).
  assert (Hnur : ~ In u rest /\ ~ In u pre).
  { rewrite Eo in Hord. apply NoDup_remove_2 in Hord. split; intros Hx; apply Hord; apply in_or_app; auto. }
  assert (Hug : In u (node_ids g)).
  { destruct (node_kind_complete g0 u Hu0) as [k Hk0]. rewrite Hk0 in Hk. eapply node_kind_ids; eauto. }
  assert (Hres : forall e, In e (out_edges g u) -> has_result st F (e_dst e)).
  { intros e He. apply out_edges_In in He. destruct He as [He Es]. destruct (i_child0 e He) as [[A B]|A]; auto; [rewrite Es; auto|]. exfalso.
    rewrite Es in B. pose proof (Htopo pre u rest Eo _ B) as Hp. rewrite Eo in Hord.
    destruct A as [A|A]; [rewrite A in *; tauto|].
    apply in_split in Hp. destruct Hp as [a [b Hp]]. rewrite Hp, <- app_assoc in Hord. apply NoDup_remove_2 in Hord. apply Hord.
    apply in_or_app. right. apply in_or_app. right. now right. }
  assert (Hev : exists v, eval_unit (fun _ => None) sum_log_forward prod_log_forward g st u = Some v /\ nexp v = F u).
  { unfold eval_unit. rewrite (i_F0 u Hu0). rewrite Hk. destruct (node_kind_complete g0 u Hu0) as [k Hk0]. rewrite Hk0.
    pose proof (HF0 u k Hk0) as HF. pose proof (i_perm0 u Hug Hu0) as HP.
    destruct k as [d| |].
    - exfalso. now apply (Hnl d).
    - simpl in HF.
      assert (HL : exists l, mapM (fun e => match e_lw e, st (e_dst e) with Some w, Some v => Some (w, v) | _, _ => None end) (out_edges g u) = Some l /\
        Forall2 (fun e q => e_lw e = Some (fst q)) (out_edges g u) l /\ Forall2 (fun (e : edge) (q : num * num) => nexp (snd q) = F (e_dst e)) (out_edges g u) l).
      { assert (Hw : forall e, In e (out_edges g u) -> exists x, e_lw e = Some (Fin x)).
        { intros e He. apply out_edges_In in He. destruct He as [He Es]. apply (sh_w _ Hshape _ _ i_core0 e He). rewrite Es. congruence. }
        clear - Hres Hw. induction (out_edges g u) as [|e l IH]; [exists []; auto|].
        destruct IH as [l' [A [B C]]]; [intros; apply Hres; now right|intros; apply Hw; now right|].
        destruct (Hres e (or_introl eq_refl)) as [v [V1 V2]]. destruct (Hw e (or_introl eq_refl)) as [x Hx].
        exists ((Fin x, v) :: l'). split; [|split; constructor; auto]. simpl. rewrite Hx, V1.
        unfold mapM in A |- *. now rewrite A. }
      destruct HL as [l [L1 [L2 L3]]]. rewrite L1.
      assert (Hne : l <> []).
      { intros ->. inversion L2. apply (sh_sum _ Hshape _ _ i_core0 u); [congruence|auto]. }
      destruct l as [|q l]; [tauto|]. eexists. split; [reflexivity|]. rewrite (nexp_log_sum _ _ L2 F L3), HF.
      rewrite <- (map_map (fun e => (e_lw e, F (e_dst e))) (fun p => nmul (lwN (fst p)) (snd p))).
      rewrite <- (map_map (fun e => (e_lw e, F0 (e_dst e))) (fun p => nmul (lwN (fst p)) (snd p))).
      apply nsum_perm. now apply Permutation_map.
    - simpl in HF.
      assert (HL : exists l, mapM (fun e => st (e_dst e)) (out_edges g u) = Some l /\ map nexp l = map (fun e => F (e_dst e)) (out_edges g u)).
      { clear - Hres. induction (out_edges g u) as [|e l IH]; [exists []; auto|].
        destruct IH as [l' [A B]]; [intros; apply Hres; now right|]. destruct (Hres e (or_introl eq_refl)) as [v [V1 V2]].
        exists (v :: l'). simpl. rewrite V1. unfold mapM in A |- *. rewrite A, B, V2. auto. }
      destruct HL as [l [L1 L2]]. rewrite L1. eexists. split; [reflexivity|]. rewrite nexp_nsum, L2, HF.
      rewrite <- (map_map (fun e => (e_lw e, F (e_dst e))) (fun p => snd p)), <- (map_map (fun e => (e_lw e, F0 (e_dst e))) (fun p => snd p)).
      apply nprod_perm; [now apply Permutation_map|]. rewrite map_map. apply Forall_map, Forall_forall. intros e _. destruct (i_Fn0 (e_dst e)) as [y [Hy ->]]. exact Hy. }
  destruct Hev as [v [V1 V2]]. exists v. split.
  - unfold unit_conditional. cbn [fst snd]. rewrite V1, Hk. destruct (node_kind_complete g0 u Hu0) as [k Hk0]. rewrite Hk0 in *.
    destruct k as [d| |]; auto. exfalso. now apply (Hnl d).
  - assert (Hst : forall x, has_result st F x -> has_result (upd st u v) F x).
    { intros x [w [W1 W2]]. unfold has_result, upd. destruct (Nat.eqb_spec x u) as [->|Hne]; eauto. }
    constructor; auto.
    + intros x Hx. apply i_rest0. now right.
    + intros e He Hs. destruct (i_child0 e He Hs) as [[[A|A] B]|A]; auto. right. exists v. unfold upd. rewrite <- A, Nat.eqb_refl. split; auto.
    + intros x k Hx Hnr. destruct (Nat.eq_dec x u) as [->|Hne].
      * assert (Hxx : has_result (upd st u v) F u) by (exists v; unfold upd; rewrite Nat.eqb_refl; auto).
        destruct k as [d| |]; auto. exfalso. apply (Hnl d). congruence.
      * assert (Hd := i_done0 x k Hx). destruct k as [d| |]; [|apply Hst, Hd; intros [E|E]; auto..].
        unfold upd, has_result in *. apply Nat.eqb_neq in Hne. rewrite Hne. apply Hd. intros [E|E]; auto. apply Nat.eqb_neq in Hne. auto.
    + intros x k Hx Hn. specialize (i_new0 x k Hx Hn). destruct k; auto. destruct i_new0 as [N1 N2]. split; auto. intros e He.
      destruct (N2 e He) as [A B]. split; auto. unfold upd. destruct (Nat.eqb_spec (e_dst e) u) as [E|]; auto. exfalso. apply A. rewrite E. exact Hu0.
    + destruct i_root0 as [R1 [R2 R3]]. split; [auto|split; [|auto]]. intros Hr. apply R2. now right.
Qed.

Lemma step_same u d d' v rest pre g g' st nx r F M : order = pre ++ u :: rest -> cinv (u :: rest) g st nx r F M ->
  node_kind g0 u = Some (ULeaf d) -> core g' r -> node_ids g' = node_ids g -> g_edges g' = g_edges g ->
  node_kind g' u = Some (ULeaf d') -> (forall x, x <> u -> node_kind g' x = node_kind g x) ->
  nexp v = val d -> (val d <> Fin 0 -> Q d') -> dvars d' = dvars d ->
  cinv rest g' (upd st u v) nx r F M.
Proof.
  intros Eo H Hk0 Hc' Hids Hedges Hku Hko Hv HQ Hdv. destruct H.
  assert (Hu0 : In u (node_ids g0)) by (eapply node_kind_ids; eauto).
  assert (Hout : forall x, out_edges g' x = out_edges g x) by (intros x; unfold out_edges; now rewrite Hedges).
  assert (Hnur : ~ In u rest).
  { rewrite Eo in Hord. apply NoDup_remove_2 in Hord. intros Hx; apply Hord; apply in_or_app; auto. }
  assert (Hkg : node_kind g u = Some (ULeaf d)) by (rewrite i_rest0; auto; now left).
  assert (HFu : F u = val d) by (rewrite i_F0 by auto; apply (HF0 u _ Hk0)).
  assert (Hst : forall x, has_result st F x -> has_result (upd st u v) F x).
  { intros x [w [W1 W2]]. unfold has_result, upd. destruct (Nat.eqb_spec x u) as [->|Hne]; eauto. exists v. split; auto. now rewrite HFu. }
  assert (Hru : has_result (upd st u v) F u) by (exists v; unfold upd; rewrite Nat.eqb_refl; split; auto; now rewrite HFu).
  constructor; rewrite ?Hids; auto.
  - intros x Hx. rewrite Hko; [apply i_rest0; now right|]. intros ->. auto.
  - intros x k Hx Hx0 Hnl. destruct (Nat.eq_dec x u) as [->|Hne]; [rewrite Hku in Hx; injection Hx as <-; exfalso; now apply (Hnl d')|].
    rewrite Hko in Hx by auto. eauto.
  - intros x Hx Hx0. rewrite Hout. auto.
  - intros e He Hs. rewrite Hedges in He. destruct (i_child0 e He Hs) as [[[A|A] B]|A]; auto. right. rewrite <- A. exact Hru.
  - intros x k Hx Hnr. destruct (Nat.eq_dec x u) as [->|Hne].
    + rewrite Hku in Hx. injection Hx as <-. split; auto. intros Hn. apply HQ. intros E. apply Hn. rewrite E in Hv. apply nexp_zero in Hv.
      unfold upd. rewrite Nat.eqb_refl. congruence.
    + rewrite Hko in Hx by auto. assert (Hd := i_done0 x k Hx).
      destruct k as [d0| |]; [|apply Hst, Hd; intros [E|E]; auto..].
      unfold upd, has_result in *. apply Nat.eqb_neq in Hne. rewrite Hne. apply Hd. intros [E|E]; auto. apply Nat.eqb_neq in Hne. auto.
  - intros x k Hx Hn. destruct (Nat.eq_dec x u) as [->|Hne]; [tauto|]. rewrite Hko in Hx by auto.
    specialize (i_new0 x k Hx Hn). destruct k; auto. destruct i_new0 as [N1 N2]. split; auto. intros e He. rewrite Hout in He.
    destruct (N2 e He) as [A B]. split; auto. unfold upd. destruct (Nat.eqb_spec (e_dst e) u) as [E|]; auto. exfalso. apply A. rewrite E. exact Hu0.
  - intros x k Hx. rewrite Hout. destruct (Nat.eq_dec x u) as [->|Hne].
    + rewrite Hku in Hx. injection Hx as <-. pose proof (i_scope0 u _ Hkg) as [S1 [S2 S3]]. split; [|split; exact I].
      simpl in *. intros w. rewrite S1, Hdv. reflexivity.
    + rewrite Hko in Hx by auto. now apply i_scope0.
  - destruct i_root0 as [R1 [R2 R3]]. split; [|split; [|auto]].
    { destruct R1 as [R1|[R1 R1']]; auto. right. split; auto. rewrite Hko; auto. intros ->. auto. } intros Hr. apply R2. now right.
Qed.

Lemma holds_ext (L L' : local (D := D)) g : (forall u k l, L u k l -> L' u k l) -> holds L g -> holds L' g.
Proof. intros H1 H2 u k Hk. auto. Qed.

Lemma Lscope_relabel M M' (f : edge -> edge) x k l : (forall e, In e l -> forall v, M' (e_dst (f e)) v <-> M (e_dst e) v) ->
  (forall v, M' x v <-> M x v) -> (forall d, k <> ULeaf d) -> Lscope dvars M x k l -> Lscope dvars M' x k (map f l).
Proof.
  intros H1 H2 Hk [S1 [S2 S3]]. 
  assert (HF : ForallOrdPairs (disj M) l -> ForallOrdPairs (disj M') (map f l)).
  { clear - H1. intros H. induction H as [|a l HA HO IH]; simpl; constructor.
    - apply Forall_map. apply Forall_forall. intros b Hb. rewrite Forall_forall in HA. intros v [V1 V2]. apply (HA b Hb v).
      split; [apply (H1 a)|apply (H1 b)]; simpl; auto.
    - apply IH. intros e He. apply H1. now right. }
  split; [|split].
  - destruct k as [d| |]; [exfalso; now apply (Hk d)| |]; simpl in *; intros v; rewrite H2, S1; split.
    + intros [e [He Hv]]. exists (f e). split; [now apply in_map|]. now apply H1.
    + intros [e [He Hv]]. apply in_map_iff in He. destruct He as [e' [<- He]]. exists e'. split; auto. now apply H1.
    + intros [e [He Hv]]. exists (f e). split; [now apply in_map|]. now apply H1.
    + intros [e [He Hv]]. apply in_map_iff in He. destruct He as [e' [<- He]]. exists e'. split; auto. now apply H1.
  - destruct k as [d| |]; simpl in *; auto. intros e He v Hv. apply in_map_iff in He. destruct He as [e' [<- He]].
    apply H1; auto. apply S2; auto. now apply H2.
  - destruct k as [d| |]; simpl in *; auto.
Qed.

Lemma step_many u d l lp rest pre g st nx r F M : order = pre ++ u :: rest -> cinv (u :: rest) g st nx r F M ->
  node_kind g0 u = Some (ULeaf d) -> lcond d = Some (LMany l lp) -> nexp lp = val d -> val d <> Fin 0 -> l <> [] ->
  Forall (fun pd => (exists x, fst pd = Fin x) /\ Q (snd pd) /\ dvars (snd pd) = dvars d) l ->
  exists g' st' nx' r' F' M', leaf_conditional lcond (g, st, nx) u d = Some (g', st', nx') /\ cinv rest g' st' nx' r' F' M'.
Proof.
  intros Eo H Hk0 Hc Hv Hv0 Hne Hl. destruct H.
  assert (Hu0 : In u (node_ids g0)) by (eapply node_kind_ids; eauto).
  assert (Hnur : ~ In u rest).
  { rewrite Eo in Hord. apply NoDup_remove_2 in Hord. intros Hx; apply Hord; apply in_or_app; auto. }
  assert (Hkg : node_kind g u = Some (ULeaf d)) by (rewrite i_rest0; auto; now left).
  assert (HFu : F u = val d) by (rewrite i_F0 by auto; apply (HF0 u _ Hk0)).
  destruct (leaf_conditional_many lcond g u d st nx l lp (sh_wf _ Hshape _ _ i_core0) (sh_leaf _ Hshape _ _ i_core0) Hkg i_lt1 Hc Hne) as [ns [es [st' [H1 [H2 [H3 [H4 [H5 H6]]]]]]]].
  { eapply Forall_impl; [|exact Hl]. simpl. tauto. }
  pose proof (sh_wf _ Hshape _ _ i_core0) as Hwfg. pose proof (sh_leaf _ Hshape _ _ i_core0) as Hlfg.
  set (g' := replaced g u nx ns es) in *.
  set (F' := fun x : id => if x =? nx then nexp lp else F x).
  set (M' := fun x : id => if nx <=? x then M u else M x).
  assert (HF'o : forall x, x < nx -> F' x = F x).
  { intros x Hx. unfold F'. replace (x =? nx) with false; auto. symmetry. apply Nat.eqb_neq. lia. }
  assert (HF's : F' nx = val d) by (unfold F'; now rewrite Nat.eqb_refl).
  assert (HM'o : forall x, x < nx -> M' x = M x).
  { intros x Hx. unfold M'. replace (nx <=? x) with false; auto. symmetry. apply Nat.leb_gt. lia. }
  assert (HM'n : forall x, nx <= x -> M' x = M u).
  { intros x Hx. unfold M'. apply Nat.leb_le in Hx. now rewrite Hx. }
  assert (Hux : u < nx) by auto.
  assert (Hg0 : forall x, nx <= x -> ~ In x (node_ids g0)) by (intros x Hx Hin; apply i_lt2 in Hin; lia).
  assert (Hst'o : forall x, x < nx -> upd st' nx lp x = st x).
  { intros x Hx. unfold upd. replace (x =? nx) with false by (symmetry; apply Nat.eqb_neq; lia). rewrite H6.
    replace (nx <=? x) with false; auto. symmetry. apply Nat.leb_gt. lia. }
  assert (Hst's : upd st' nx lp nx = Some lp) by (unfold upd; now rewrite Nat.eqb_refl).
  assert (Hst'n : forall x, S nx <= x < S nx + length l -> upd st' nx lp x = None).
  { intros x Hx. unfold upd. replace (x =? nx) with false by (symmetry; apply Nat.eqb_neq; lia). rewrite H6.
    replace (nx <=? x) with true by (symmetry; apply Nat.leb_le; lia). replace (x <? S nx + length l) with true by (symmetry; apply Nat.ltb_lt; lia). auto. }
  assert (Rids : forall x, In x (node_ids g') <-> (In x (node_ids g) /\ x <> u) \/ (nx <= x < S nx + length l)) by (apply rep_ids; auto).
  assert (Redges : forall e, In e (g_edges g') <-> (In e (g_edges g) /\ e_dst e <> u) \/ In e es \/
    (exists e0, In e0 (g_edges g) /\ e_dst e0 = u /\ e = mkEdge (e_src e0) nx (e_lw e0))) by (intros e; eapply rep_edges; eauto).
  assert (Res : forall e, In e es -> e_src e = nx /\ (S nx <= e_dst e < S nx + length l) /\ exists x, e_lw e = Some (Fin x)) by (intros e He; eapply rep_es; eauto).
  assert (Rold : forall x, In x (node_ids g) -> x <> u -> node_kind g' x = node_kind g x) by (intros x Hx Hxu; eapply rep_kind_old; eauto).
  assert (Rsum : node_kind g' nx = Some USum) by (eapply rep_kind_sum; eauto).
  assert (Rnew : forall x, S nx <= x < S nx + length l -> exists pd, In pd l /\ node_kind g' x = Some (ULeaf (snd pd))) by (intros x Hx; eapply rep_kind_new; eauto).
  assert (Rout : forall x, In x (node_ids g) -> Permutation (out_edges g' x) (map (reroute u nx) (out_edges g x))) by (intros x Hx; eapply rep_out_old; eauto).
  assert (Routs : out_edges g' nx = es) by (eapply rep_out_sum; eauto).
  assert (Rcore : core g' (if r =? u then nx else r)) by (eapply (sh_rep _ Hshape); eauto).
  assert (Rcases : forall x k, node_kind g' x = Some k -> (In x (node_ids g) /\ x <> u /\ node_kind g x = Some k /\ x < nx) \/ (x = nx /\ k = USum) \/
      (S nx <= x < S nx + length l /\ exists pd, In pd l /\ k = ULeaf (snd pd))).
  { intros x k Hx. assert (Hin := Hx). apply node_kind_ids, Rids in Hin. destruct Hin as [[A B]|A].
    - left. split; [auto|split; [auto|split; [rewrite <- Rold; auto|auto]]].
    - right. destruct (Nat.eq_dec x nx) as [->|Hxn]; [left; split; congruence|right]. split; [lia|].
      destruct (Rnew x) as [pd [P1 P2]]; [lia|]. exists pd. split; auto. congruence. }
  assert (Hdst : forall e, In e (g_edges g) -> e_dst e < nx) by (intros e He; apply i_lt1; apply (wf_dst g); auto).
  assert (HFd : forall e, In e (g_edges g) -> F' (e_dst (reroute u nx e)) = F (e_dst e)).
  { intros e He. unfold reroute. destruct (Nat.eqb_spec (e_dst e) u) as [E|E]; simpl; [rewrite E, HFu; exact HF's|apply HF'o; auto]. }
  assert (HMd : forall e, In e (g_edges g) -> forall v, M' (e_dst (reroute u nx e)) v <-> M (e_dst e) v).
  { intros e He v. unfold reroute. destruct (Nat.eqb_spec (e_dst e) u) as [E|E]; simpl; [rewrite HM'n by lia; now rewrite E|rewrite HM'o by auto; tauto]. }
  assert (Hlw : forall e, e_lw (reroute u nx e) = e_lw e) by (intros e; unfold reroute; destruct (e_dst e =? u); auto).
  assert (Hsu : forall e, In e (g_edges g) -> e_src e <> u).
  { intros e He E. apply (sh_leaf _ Hshape _ _ i_core0 e d He). rewrite E. exact Hkg. }
  assert (Hst : forall x, x < nx -> has_result st F x -> has_result (upd st' nx lp) F' x).
  { intros x Hx [w [W1 W2]]. exists w. rewrite Hst'o, HF'o by auto. auto. }
  assert (Hrs : has_result (upd st' nx lp) F' nx) by (exists lp; split; auto; congruence).
  exists g', (upd st' nx lp), (S nx + length l), (if r =? u then nx else r), F', M'. split; [exact H1|].
  constructor; auto.
  - intros x Hx. apply Rids in Hx. destruct Hx as [[Hx _]|Hx]; [apply i_lt1 in Hx|]; lia.
  - intros x Hx. apply i_lt2 in Hx. lia.
  - intros x Hx. assert (Hk : node_kind g x = node_kind g0 x) by (apply i_rest0; now right).
    rewrite <- Hk. apply Rold; [|intros ->; auto].
    assert (Hx0 : In x (node_ids g0)) by (apply Hin0; rewrite Eo; apply in_or_app; right; now right).
    destruct (node_kind_complete g0 x Hx0) as [k Hk']. rewrite Hk' in Hk. eapply node_kind_ids; eauto.
  - intros x k Hx Hx0 Hnl. destruct (Rcases x k Hx) as [[A [B [C E]]]|[[A B]|[A B]]]; eauto; exfalso; apply (Hg0 x); auto; lia.
  - intros x Hx Hx0. apply Rids in Hx. destruct Hx as [[Hx Hxu]|Hx]; [|exfalso; apply (Hg0 x); auto; lia].
    rewrite <- (i_perm0 x Hx Hx0). rewrite (Permutation_map _ (Rout x Hx)), map_map.
    apply Permutation_refl'. apply map_ext_in. intros e He. apply out_edges_In in He. rewrite Hlw, HFd; tauto.
  - intros x Hx. rewrite HF'o by auto. auto.
  - intros x. unfold F'. destruct (x =? nx); auto. rewrite Hv, <- HFu. auto.
  - intros e He Hs. apply Redges in He. destruct He as [[He Hd]|[He|[e0 [He [Hd ->]]]]].
    + destruct (i_child0 e He Hs) as [[[A|A] B]|A]; [congruence|auto|right; apply Hst; auto].
    + exfalso. apply Res in He. destruct He as [E _]. apply (Hg0 nx); auto. now rewrite E in Hs.
    + right. exact Hrs.
  - intros x k Hx Hnr. destruct (Rcases x k Hx) as [[A [B [C E]]]|[[A B]|[A [pd [P1 P2]]]]].
    + assert (Hd := i_done0 x k C). destruct k as [d0| |]; [|apply Hst; auto; apply Hd; intros [E'|E']; auto..].
      rewrite Hst'o by auto. destruct Hd as [Hd1 Hd2]; [intros [E'|E']; auto|]. split; auto. destruct Hd1; auto.
    + subst x k. exact Hrs.
    + subst k. rewrite Hst'n by auto. split; [left; split; [auto|apply Hg0; lia]|]. intros _. rewrite Forall_forall in Hl. apply (Hl pd P1).
  - intros x k Hx Hn. destruct (Rcases x k Hx) as [[A [B [C E]]]|[[A B]|[A [pd [P1 P2]]]]].
    + specialize (i_new0 x k C Hn). destruct k; auto. destruct i_new0 as [N1 N2]. rewrite HF'o by auto. split; auto. intros e He.
      eapply Permutation_in in He; [|apply Rout; auto]. apply in_map_iff in He. destruct He as [e' [<- He']]. destruct (N2 e' He') as [X1 X2].
      unfold reroute. destruct (Nat.eqb_spec (e_dst e') u) as [E'|E']; [exfalso; apply X1; rewrite E'; exact Hu0|]. split; auto.
      apply out_edges_In in He'. rewrite Hst'o; auto. apply Hdst. tauto.
    + subst x k. split; [congruence|]. intros e He. rewrite Routs in He. apply Res in He. destruct He as [_ [He _]]. split; [apply Hg0; lia|auto].
    + now subst k.
  - intros x k Hx. destruct (Rcases x k Hx) as [[A [B [C E]]]|[[A B]|[A [pd [P1 P2]]]]].
    + pose proof (i_scope0 x k C) as HS. apply (cl_perm _ (Lscope_closed dvars M') x k _ _ (Permutation_sym (Rout x A))).
      destruct k as [d0| |].
      * assert (Eo' : out_edges g x = []).
        { destruct (out_edges g x) as [|e L] eqn:El; auto. exfalso. assert (He : In e (out_edges g x)) by (rewrite El; now left).
          apply out_edges_In in He. destruct He as [He Es]. apply (sh_leaf _ Hshape _ _ i_core0 e d0 He). now rewrite Es. }
        rewrite Eo' in *. destruct HS as [S1 [S2 S3]]. split; [|split; exact I]. simpl in *. now rewrite HM'o by auto.
      * apply (Lscope_relabel M); auto; [|rewrite HM'o by auto; tauto|discriminate]. intros e He. apply HMd. apply out_edges_In in He. tauto.
      * apply (Lscope_relabel M); auto; [|rewrite HM'o by auto; tauto|discriminate]. intros e He. apply HMd. apply out_edges_In in He. tauto.
    + subst x k. rewrite Routs. split; [|split; [|exact I]]; simpl.
      * intros v. rewrite HM'n by lia. assert (Hnil : es <> []) by (eapply rep_es_ne; eauto). destruct es as [|e es']; [tauto|]. split.
        -- intros Hm. exists e. split; [now left|]. rewrite HM'n; auto. destruct (Res e (or_introl eq_refl)) as [_ [X _]]. lia.
        -- intros [e' [He' Hm]]. rewrite HM'n in Hm; auto. destruct (Res e' He') as [_ [X _]]. lia.
      * intros e He v. rewrite HM'n by lia. intros Hm. rewrite HM'n; auto. destruct (Res e He) as [_ [X _]]. lia.
    + subst k. split; [|split; exact I]. simpl. intros v. rewrite HM'n by lia. pose proof (i_scope0 u _ Hkg) as [S1 _]. simpl in S1. rewrite S1.
      rewrite Forall_forall in Hl. destruct (Hl pd P1) as [_ [_ ->]]. tauto.
  - destruct i_root0 as [R1 [R2 [R3 R4]]]. destruct (Nat.eqb_spec r u) as [->|Hru].
    + assert (Er : u = r0).
      { destruct R1; [auto|]. exfalso. tauto. }
      subst r0. split; [right; split; [apply Hg0; lia|exact Rsum]|split; [tauto|split]].
      * rewrite HF's, <- R3. now rewrite HFu.
      * intros v. rewrite HM'n by lia. auto.
    + assert (Hr : r < nx) by (apply i_lt1; apply (sh_in _ Hshape _ _ i_core0)).
      split; [|split; [intros Hx; apply R2; now right|split]]; [|rewrite HF'o; auto|].
      { destruct R1 as [R1|[R1 R1']]; auto. right. split; auto. rewrite Rold; auto. apply (sh_in _ Hshape _ _ i_core0). } intros v. rewrite HM'o by auto. auto.
Qed.

Lemma pass_inv : forall rest pre g st nx r F M, order = pre ++ rest -> cinv rest g st nx r F M ->
  exists g' st' nx' r' F' M', foldM (unit_conditional lcond) rest (g, st, nx) = Some (g', st', nx') /\ cinv [] g' st' nx' r' F' M'.
Proof.
  induction rest as [|u rest IH]; intros pre g st nx r F M Eo H; cbn [foldM].
  { exists g, st, nx, r, F, M. auto. }
  assert (Hu0 : In u (node_ids g0)) by (apply Hin0; rewrite Eo; apply in_or_app; right; now left).
  assert (Hstep : exists g' st' nx' r' F' M', unit_conditional lcond (g, st, nx) u = Some (g', st', nx') /\ cinv rest g' st' nx' r' F' M').
  { destruct (node_kind_complete g0 u Hu0) as [k Hk0].
    assert (Hk : node_kind g u = Some k) by (rewrite (i_rest _ _ _ _ _ _ _ H); auto; now left).
    destruct k as [d| |].
    - unfold unit_conditional. cbn [fst snd]. rewrite Hk. destruct (Hgood u d Hk0) as [Hn [res [Hc Hr]]].
      destruct res as [|d' lp|l lp].
      + exists g, (upd st u NInf), nx, r, F, M. split; [unfold leaf_conditional; now rewrite Hc|].
        apply (step_same u d d NInf rest pre g g st nx r F M); auto; [apply H|tauto].
      + destruct Hr as [E1 [E2 E3]]. exists (set_kind g u (ULeaf d')), (upd st u lp), nx, r, F, M. split; [unfold leaf_conditional; now rewrite Hc|].
        apply (step_same u d d' lp rest pre g _ st nx r F M); auto.
        * eapply (sh_set _ Hshape); eauto. apply H.
        * apply set_kind_ids.
        * apply set_kind_same. eapply node_kind_ids; eauto.
        * intros x Hx. now apply set_kind_other.
      + destruct Hr as [E1 [E2 [E3 E4]]]. eapply step_many; eauto.
    - destruct (step_inner u rest pre g st nx r F M Eo H) as [v [V1 V2]]; [congruence|]. exists g, (upd st u v), nx, r, F, M. auto.
    - destruct (step_inner u rest pre g st nx r F M Eo H) as [v [V1 V2]]; [congruence|]. exists g, (upd st u v), nx, r, F, M. auto. }
  destruct Hstep as [g' [st' [nx' [r' [F' [M' [E H']]]]]]]. rewrite E. eapply (IH (pre ++ [u])); eauto. now rewrite <- app_assoc.
Qed.

Lemma pass_init st nx : (forall u, In u (node_ids g0) -> In u order) -> (forall x, In x (node_ids g0) -> x < nx) ->
  cinv order g0 st nx r0 F0 M0.
Proof.
  intros Hall Hlt. constructor; auto.
  - intros e He Hs. left. split; [apply Hall; apply (wf_dst g0); auto; apply (sh_wf _ Hshape _ _ Hcore0)|]. apply subcircuits_In. eauto.
  - intros x k Hk Hn. exfalso. apply Hn, Hall. eapply node_kind_ids; eauto.
  - intros x k Hk Hn. exfalso. apply Hn. eapply node_kind_ids; eauto.
  - split; [auto|split; [auto|split; [auto|tauto]]].
Qed.
End Inv.
End Pass.
