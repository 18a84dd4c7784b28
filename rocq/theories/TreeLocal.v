(** * TreeLocal: the meaning of a circuit as local equations, and what simplify does to it *)
From Coq Require Import List Arith Bool Lia Reals Lra Permutation.
From Verif Require Import Num Graph GraphFacts Spec SpecFacts Circuit EvalFacts VarFacts TreeProb Simplify SimplifyFacts.
Import ListNotations.

(** ** Algebra of idealised floats under permutation and scaling *)
Lemma nsum_perm l l' : Permutation l l' -> nsum l = nsum l'.
Proof.
  induction 1; simpl; auto.
  - now rewrite IHPermutation.
  - rewrite !nadd_assoc. f_equal. apply nadd_comm.
  - congruence.
Qed.

Lemma nprod_perm l l' : Permutation l l' -> Forall nonneg l -> nprod l = nprod l'.
Proof.
  induction 1; simpl; intros Hn; auto.
  - inversion Hn; subst. now rewrite IHPermutation.
  - inversion Hn as [|? ? H1 H2]; subst. inversion H2 as [|? ? H3 H4]; subst.
    rewrite !nmul_assoc by auto using nonneg_prod. f_equal. apply nmul_comm.
  - rewrite IHPermutation1 by auto. apply IHPermutation2. eapply Permutation_Forall; eauto.
Qed.

Lemma nmul_add_pos x a b : (0 < x)%R -> nmul (Fin x) (nadd a b) = nadd (nmul (Fin x) a) (nmul (Fin x) b).
Proof.
  intros Hx. destruct a, b; simpl; auto; unfold nscale_inf;
    repeat match goal with |- context [total_order_T ?a ?b] => destruct (total_order_T a b) as [[?|?]|?] end;
    simpl; auto; try lra. f_equal. ring.
Qed.

Lemma nmul_sum_pos {A} (f : A -> num) x l : (0 < x)%R ->
  nmul (Fin x) (nsum (map f l)) = nsum (map (fun a => nmul (Fin x) (f a)) l).
Proof.
  intros Hx. induction l; cbn [map nsum fold_right]; [simpl; f_equal; ring|]. rewrite nmul_add_pos by auto. f_equal. exact IHl.
Qed.

Section Local.
Context {D : Type}.
Implicit Types g : graph D.

(** ** Trees as a function of the unit *)
Fixpoint tree_at g (fuel : nat) (u : id) : option (pc D) :=
  match fuel with
  | 0 => None
  | S f =>
    match node_kind g u with
    | None => None
    | Some (ULeaf d) => Some (PLeaf d)
    | Some USum => match mapM (fun e => match e_lw e, tree_at g f (e_dst e) with
                                        | Some w, Some t => Some (w, t) | _, _ => None end) (out_edges g u) with
                   | None => None | Some l => Some (PSum l) end
    | Some UProd => match mapM (fun e => tree_at g f (e_dst e)) (out_edges g u) with
                    | None => None | Some l => Some (PProd l) end
    end
  end.

Lemma tree_at_unfolds g u t : unfolds g u t -> forall fuel, height t <= fuel -> tree_at g fuel u = Some t.
Proof.
  intros Ht. revert u t Ht.
  refine (unfolds_ind' g _ _ _ _); [intros u d Hk|intros u ts Hk Hne HF|intros u ts Hk HF]; intros [|f] Hf;
    simpl in Hf; try lia; simpl; rewrite Hk; auto.
  - replace (mapM _ (out_edges g u)) with (Some ts); auto. symmetry. apply mapM_Forall2.
    assert (Hm : forall wt, In wt ts -> height (snd wt) <= f).
    { intros wt Hin. apply le_S_n in Hf. eapply Nat.le_trans; [|exact Hf]. apply fold_max_In, in_map_iff. eauto. }
    clear - HF Hm. induction HF as [|e [w t] es ts [H1 [H2 H3]] HF IH]; constructor.
    + rewrite H1. simpl in *. rewrite (H3 f); auto. apply (Hm (w, t)). now left.
    + apply IH. intros. apply Hm. now right.
  - replace (mapM _ (out_edges g u)) with (Some ts); auto. symmetry. apply mapM_Forall2.
    assert (Hm : forall t, In t ts -> height t <= f).
    { intros t Hin. apply le_S_n in Hf. eapply Nat.le_trans; [|exact Hf]. apply fold_max_In, in_map_iff. eauto. }
    clear - HF Hm. induction HF as [|e t es ts [H1 H2] HF IH]; constructor.
    + apply H2. apply Hm. now left.
    + apply IH. intros. apply Hm. now right.
Qed.

Definition the_tree g u : option (pc D) := tree_at g (length (g_nodes g)) u.

Lemma the_tree_unfolds g u t : unfolds g u t -> the_tree g u = Some t.
Proof. intros H. apply tree_at_unfolds; auto. eapply height_bound; eauto. Qed.

(** Hereditary properties hold at every unit below the root. *)
Definition hereditary (P : pc D -> Prop) : Prop :=
  (forall l, P (PSum l) -> Forall (fun wt => P (snd wt)) l) /\ (forall l, P (PProd l) -> Forall P l).

Lemma reach_hereditary (P : pc D -> Prop) g r t u : hereditary P -> leaves_terminal g -> unfolds g r t -> P t -> reach g r u ->
  exists t', unfolds g u t' /\ P t'.
Proof.
  intros [HS HP] Hlt Ht HPt Hr. induction Hr as [|v e Hv IH He Hs]; [eauto|].
  destruct IH as [tv [Htv HPv]]. assert (Hin : In e (out_edges g v)) by now apply out_edges_In.
  destruct Htv as [v d Hk|v ts Hk Hne HF|v ts Hk HF].
  - exfalso. eapply Hlt; [exact He|]. rewrite Hs. exact Hk.
  - apply HS in HPv. clear - HF Hin HPv. induction HF as [|e' wt es ts [H1 H2] HF IH]; [destruct Hin|].
    inversion HPv; subst. destruct Hin as [->|Hin]; eauto.
  - apply HP in HPv. clear - HF Hin HPv. induction HF as [|e' wt es ts H2 HF IH]; [destruct Hin|].
    inversion HPv; subst. destruct Hin as [->|Hin]; eauto.
Qed.

(** ** Local equations *)
Definition lwN (o : option num) : num := match o with Some w => nexp w | None => NaN end.
Definition lwR (o : option num) : R := match o with Some w => wexp w | None => 0%R end.

Definition Lval (val : D -> num) (F : id -> num) : local (D := D) := fun u k l =>
  match k with
  | ULeaf d => F u = val d
  | USum => F u = nsum (map (fun e => nmul (lwN (e_lw e)) (F (e_dst e))) l)
  | UProd => F u = nprod (map (fun e => F (e_dst e)) l)
  end.

Definition Lfin : local (D := D) := fun _ k l => match k with USum => Forall (fun e => exists x, e_lw e = Some (Fin x)) l | _ => True end.
Definition Lnorm : local (D := D) := fun _ k l => match k with USum => Rsum (map (fun e => lwR (e_lw e)) l) = 1%R | _ => True end.

Definition Lvars (dvars : D -> list nat) (M : id -> nat -> Prop) : local (D := D) := fun u k l =>
  match k with
  | ULeaf d => forall v, M u v <-> In v (dvars d)
  | _ => forall v, M u v <-> exists e, In e l /\ M (e_dst e) v
  end.

Definition Lsmooth (M : id -> nat -> Prop) : local (D := D) := fun u k l =>
  match k with USum => forall e, In e l -> forall v, M u v -> M (e_dst e) v | _ => True end.

Definition disj (M : id -> nat -> Prop) (e1 e2 : edge) : Prop := forall v, ~ (M (e_dst e1) v /\ M (e_dst e2) v).

Definition Ldec (M : id -> nat -> Prop) : local (D := D) := fun u k l =>
  match k with UProd => ForallOrdPairs (disj M) l | _ => True end.

Lemma disj_sym M a b : disj M a b -> disj M b a.
Proof. unfold disj. intros H v. specialize (H v). tauto. Qed.

Lemma FOP_perm {A} (R : A -> A -> Prop) l l' : (forall a b, R a b -> R b a) -> Permutation l l' ->
  ForallOrdPairs R l -> ForallOrdPairs R l'.
Proof.
  intros HR. induction 1; intros H1; auto.
  - inversion H1; subst. constructor; auto. eapply Permutation_Forall; eauto.
  - inversion H1 as [|? ? F1 H2]; subst. inversion H2 as [|? ? F2 H3]; subst. inversion F1; subst.
    constructor; [constructor; auto|constructor; auto].
Qed.

Definition Lboth (L1 L2 : local (D := D)) : local (D := D) := fun u k l => L1 u k l /\ L2 u k l.

Definition Lmean val F := Lboth Lfin (Lboth Lnorm (Lval val F)).
Definition Lscope dvars M := Lboth (Lvars dvars M) (Lboth (Lsmooth M) (Ldec M)).

Lemma Rsum_perm l l' : Permutation l l' -> Rsum l = Rsum l'.
Proof. induction 1; simpl; auto; try lra. Qed.

Lemma weight_one x : Rsum [wexp (Fin x)] = 1%R -> x = 0%R.
Proof. cbn. rewrite Rplus_0_r. intros H. rewrite <- ln_1, <- H. now rewrite ln_exp. Qed.

Lemma exp_merge y x : nexp (nadd (Fin y) (Fin x)) = Fin (exp x * exp y).
Proof. simpl. f_equal. rewrite exp_plus. ring. Qed.

Lemma Lfin_closed : closed Lfin.
Proof.
  constructor.
  - intros u [d| |] l l' HP; simpl; auto. intros H. eapply Permutation_Forall; eauto.
  - intros s ks e p [d| |] e0 rest H1 H2 H3 H; simpl in *; auto. inversion H; subst. constructor; auto.
  - intros s es u e0 x rest H1 H2 H3 H4 H. simpl in *. inversion H; subst. apply Forall_app. split; auto.
    apply Forall_map, Forall_forall. intros e He. destruct (H2 e He) as [y Hy]. simpl. rewrite Hy. simpl. eauto.
Qed.

Lemma Lnorm_closed : closed Lnorm.
Proof.
  constructor.
  - intros u [d| |] l l' HP; simpl; auto. intros <-. symmetry. now apply Rsum_perm, Permutation_map.
  - intros s ks e p [d| |] e0 rest H1 H2 H3 H; simpl in *; auto.
  - intros s es u e0 x rest H1 H2 H3 H4 H. simpl in *. rewrite map_app, Rsum_app, map_map. rewrite H4 in H. simpl in H.
    rewrite <- H. f_equal. rewrite <- (Rmult_1_r (exp x)), <- H1, <- Rsum_scal. apply Rsum_ext. intros e He.
    destruct (H2 e He) as [y Hy]. simpl. rewrite Hy. simpl. rewrite exp_plus. ring.
Qed.

Lemma Lmean_single val F s k e : Lmean val F s k [e] -> (forall d, k <> ULeaf d) -> F s = F (e_dst e).
Proof.
  intros [A1 [A2 A3]] B. destruct k as [d| |]; [exfalso; now apply (B d)| |].
  - inversion A1 as [|? ? [x Hx] _]; subst. unfold Lnorm in A2. unfold Lval in A3. cbn [map nsum fold_right] in A2, A3.
    rewrite Hx in A2, A3. cbn [lwR lwN] in A2, A3. apply weight_one in A2. subst x. cbn [nexp] in A3.
    rewrite exp_0, nmul_1_l, nadd_0_r in A3. exact A3.
  - unfold Lval in A3. cbn [map nprod fold_right] in A3. rewrite nmul_1_r in A3. exact A3.
Qed.

Lemma Lmean_closed val F : (forall u, nonneg (F u)) -> closed (Lmean val F).
Proof.
  intros HF. destruct Lfin_closed as [F1 F2 F3], Lnorm_closed as [N1 N2 N3]. constructor.
  - intros u k l l' HP [H1 [H2 H3]]. split; [eauto|split; [eauto|]]. destruct k as [d| |]; simpl in *; auto.
    + rewrite H3. now apply nsum_perm, Permutation_map.
    + rewrite H3. apply nprod_perm; [now apply Permutation_map|]. apply Forall_map, Forall_forall. auto.
  - intros s ks e p kp e0 rest [A1 [A2 A3]] B C [H1 [H2 H3]]. split; [eapply F2; eauto|split; [eapply N2; eauto|]].
    assert (E : F s = F (e_dst e)).
    { eapply Lmean_single; eauto. split; [exact A1|split; [exact A2|exact A3]]. }
    destruct kp as [d| |]; simpl in *; auto; rewrite H3, C, E; reflexivity.
  - intros s es u e0 x rest [A1 [A2 A3]] B C D0 [H1 [H2 H3]].
    split; [eapply F3; eauto|split; [eapply N3; eauto|]]. unfold Lval in *. cbn [map nsum fold_right] in H3.
    rewrite H3, map_app, nsum_app, map_map. f_equal. rewrite D0, C, A3. cbn [lwN nexp].
    rewrite nmul_sum_pos by apply exp_pos. f_equal. apply map_ext_in. intros e He. destruct (B e He) as [y Hy].
    cbn [merged e_lw e_dst]. rewrite Hy. cbn [option_map lwN]. rewrite exp_merge. cbn [nexp].
    rewrite nmul_assoc; [|simpl; left; apply exp_pos|simpl; left; apply exp_pos|apply HF]. reflexivity.
Qed.

Lemma Lscope_closed dvars M : closed (Lscope dvars M).
Proof.
  constructor.
  - intros u k l l' HP [H1 [H2 H3]].
    assert (Hin : forall e, In e l <-> In e l') by (intros e; split; apply Permutation_in; [|symmetry]; auto).
    split; [|split].
    + destruct k as [d| |]; simpl in *; auto; intros v; rewrite H1; split; intros [e [He Hv]]; exists e; split; auto; now apply Hin.
    + destruct k as [d| |]; simpl in *; auto. intros e He. apply H2. now apply Hin.
    + destruct k as [d| |]; simpl in *; auto. eapply FOP_perm; eauto. apply disj_sym.
  - intros s ks e p kp e0 rest [A1 [A2 A3]] B C [H1 [H2 H3]].
    assert (E : forall v, M s v <-> M (e_dst e) v).
    { intros v. destruct ks as [d| |]; [exfalso; now apply (B d)| |]; simpl in A1; rewrite (A1 v);
      (split; [intros [e' [[<-|[]] Hv]]; auto|intros Hv; exists e; auto]). }
    assert (E2 : forall v, M (e_dst e0) v <-> M (e_dst e) v) by (rewrite C; exact E).
    split; [|split].
    + destruct kp as [d| |]; simpl in *; auto; intros v; rewrite H1; split; intros [e' [[<-|He] Hv]];
        try (eexists; split; [right; exact He|exact Hv]);
        (eexists; split; [left; reflexivity|]; simpl in *; now apply E2).
    + destruct kp as [d| |]; simpl in *; auto. intros e' [<-|He] v Hv; simpl; [apply E2|]; apply H2; auto.
    + destruct kp as [d| |]; simpl in *; auto. inversion H3 as [|? ? F1 F2]; subst. constructor; auto.
      eapply Forall_impl; [|exact F1]. intros e' Hd v [Hv1 Hv2]. simpl in Hv1. apply (Hd v). split; auto. now apply E2.
  - intros s es u e0 x rest [A1 [A2 A3]] B C D0 [H1 [H2 H3]]. simpl in *. subst s. split; [|split]; auto.
    + intros v. rewrite H1. split.
      * intros [e [[<-|He] Hv]].
        -- apply A1 in Hv. destruct Hv as [e' [He' Hv]]. exists (merged u (Fin x) e'). split; auto.
           apply in_or_app. left. now apply in_map.
        -- exists e. split; auto. apply in_or_app. auto.
      * intros [e [He Hv]]. apply in_app_iff in He. destruct He as [He|He].
        -- apply in_map_iff in He. destruct He as [e' [<- He']]. exists e0. split; auto. apply A1. exists e'. auto.
        -- exists e. auto.
    + intros e He v Hv. apply in_app_iff in He. destruct He as [He|He].
      * apply in_map_iff in He. destruct He as [e' [<- He']]. simpl. apply A2; auto.
      * apply H2; auto.
Qed.

(** ** From trees to local equations and back *)
Definition FN (val : D -> num) g (u : id) : num := match the_tree g u with Some t => semN val t | None => Fin 0 end.
Definition MN (dvars : D -> list nat) g (u : id) (v : nat) : Prop := match the_tree g u with Some t => mentions dvars t v | None => False end.

Lemma semN_nonneg (val : D -> num) t : (forall d, nonneg (val d)) -> nonneg (semN val t).
Proof.
  intros Hv. induction t as [d|l IH|l IH] using pc_ind'; simpl; auto.
  - apply nonneg_sum, Forall_map. rewrite Forall_forall in *. intros wt Hin. apply nonneg_mul; auto using nexp_nonneg.
  - apply nonneg_prod, Forall_map. auto.
Qed.

Lemma FN_nonneg val g u : (forall d, nonneg (val d)) -> nonneg (FN val g u).
Proof. intros H. unfold FN. destruct (the_tree g u); [now apply semN_nonneg|simpl; lra]. Qed.

Lemma Forall2_impl_in {A B} (P Q : A -> B -> Prop) l l' : (forall a b, In a l -> In b l' -> P a b -> Q a b) -> Forall2 P l l' -> Forall2 Q l l'.
Proof.
  intros H HF. induction HF; constructor; auto.
  - apply H; simpl; auto.
  - apply IHHF. intros; apply H; simpl; auto.
Qed.

Definition fin_sums (t : pc D) : Prop := all_sums (Forall lw_finite) t.

Lemma holds_mean val g : (forall u, In u (node_ids g) -> exists t, unfolds g u t /\ fin_sums t /\ normalised t) ->
  holds (Lmean val (FN val g)) g.
Proof.
  intros Hall u k Hk. destruct (Hall u) as [t [Ht [Hf Hn]]]; [eapply node_kind_ids; eauto|].
  pose proof (the_tree_unfolds _ _ _ Ht) as HT. unfold Lmean, Lboth.
  destruct Ht as [u d Hk'|u ts Hk' Hne HF|u ts Hk' HF]; rewrite Hk in Hk'; injection Hk' as ->; simpl; unfold FN at 1; try rewrite HT; simpl.
  - auto.
  - destruct Hf as [Hf _], Hn as [Hn _]. split; [|split].
    + clear - HF Hf. induction HF as [|e [w t] es ts [H1 H2] HF IH]; constructor; inversion Hf; subst; auto.
      simpl in *. destruct w; try tauto. eauto.
    + destruct Hn as [_ Hn]. rewrite <- Hn, map_map. f_equal. clear - HF.
      induction HF as [|e [w t] es ts [H1 H2] HF IH]; simpl; auto. f_equal; auto. now rewrite H1.
    + f_equal. clear - HF. induction HF as [|e [w t] es ts [H1 H2] HF IH]; simpl; auto. f_equal; auto. rewrite H1. simpl.
      f_equal. simpl in H2. unfold FN. now rewrite (the_tree_unfolds _ _ _ H2).
  - split; [auto|split; [auto|]]. f_equal. clear - HF. induction HF as [|e t es ts H2 HF IH]; simpl; auto.
    f_equal; auto. unfold FN. now rewrite (the_tree_unfolds _ _ _ H2).
Qed.

Lemma holds_scope dvars g : (forall u, In u (node_ids g) -> exists t, unfolds g u t /\ smooth dvars t /\ decomposable dvars t) ->
  holds (Lscope dvars (MN dvars g)) g.
Proof.
  intros Hall u k Hk. destruct (Hall u) as [t [Ht [Hs Hd]]]; [eapply node_kind_ids; eauto|].
  pose proof (the_tree_unfolds _ _ _ Ht) as HT.
  assert (HM : forall v, MN dvars g u v <-> mentions dvars t v) by (intros v; unfold MN; now rewrite HT).
  assert (HC : forall e t', unfolds g (e_dst e) t' -> forall v, MN dvars g (e_dst e) v <-> mentions dvars t' v).
  { intros e t' H v. unfold MN. now rewrite (the_tree_unfolds _ _ _ H). }
  unfold Lscope, Lboth.
  destruct Ht as [u d Hk'|u ts Hk' Hne HF|u ts Hk' HF]; rewrite Hk in Hk'; injection Hk' as ->; simpl.
  - split; [exact HM|auto].
  - destruct Hs as [Hs _]. split; [|split]; auto.
    + intros v. rewrite HM. simpl. rewrite fold_or_Exists. clear - HF HC.
      induction HF as [|e [w t] es ts [H1 H2] HF IH]; [split; [intros H; inversion H|intros [e [[] _]]]|].
      rewrite Exists_cons, IH. simpl in *. rewrite <- (HC e t H2). split.
      * intros [H|[e' [He' Hv]]]; eauto.
      * intros [e' [[->|He'] Hv]]; auto. right. eauto.
    + intros e He v Hv. apply HM in Hv. apply Hs in Hv. apply fold_and_Forall in Hv. clear - HF HC Hv He.
      induction HF as [|e' [w t] es ts [H1 H2] HF IH]; [destruct He|]. inversion Hv; subst. destruct He as [->|He]; auto.
      simpl in *. now apply (HC e t H2).
  - destruct Hd as [Hd _]. split; [|split]; auto.
    + intros v. rewrite HM. simpl. rewrite fold_or_Exists. clear - HF HC.
      induction HF as [|e t es ts H2 HF IH]; [split; [intros H; inversion H|intros [e [[] _]]]|].
      rewrite Exists_cons, IH. simpl in *. rewrite <- (HC e t H2). split.
      * intros [H|[e' [He' Hv]]]; eauto.
      * intros [e' [[->|He'] Hv]]; auto. right. eauto.
    + clear - HF HC Hd. induction HF as [|e t es ts H2 HF IH]; simpl in *; constructor; [|apply IH; tauto].
      destruct Hd as [Hd _]. rewrite fold_and_Forall, Forall_map in Hd. clear IH. induction HF as [|e' t' es ts H2' HF IH]; constructor.
      * inversion Hd; subst. intros v [Hv1 Hv2]. apply (H1 v). split; [now apply (HC e t H2)|now apply (HC e' t' H2')].
      * apply IH. now inversion Hd.
Qed.

Lemma mean_back val F g u t : holds (Lmean val F) g -> unfolds g u t -> semN val t = F u /\ normalised t /\ fin_sums t.
Proof.
  intros HH Ht. unfold normalised, fin_sums. revert u t Ht.
  refine (unfolds_ind' g _ _ _ _); [intros u d Hk|intros u ts Hk Hne HF|intros u ts Hk HF];
    destruct (HH u _ Hk) as [H1 [H2 H3]]; simpl in *.
  - auto.
  - split; [|split; [|split]].
    + rewrite H3. f_equal. clear - HF. induction HF as [|e [w t] es ts [A1 [A2 [A3 A4]]] HF IH]; simpl; auto. f_equal; auto.
      rewrite A1. simpl. now rewrite <- A3.
    + split.
      * split.
        -- clear - HF H1. induction HF as [|e [w t] es ts [A1 A2] HF IH]; simpl; constructor; inversion H1; subst; auto.
           destruct H2 as [x Hx]. rewrite A1 in Hx. simpl in *. injection Hx as ->. simpl. auto.
        -- rewrite <- H2, map_map. f_equal. clear - HF. induction HF as [|e [w t] es ts [A1 A2] HF IH]; simpl; auto. f_equal; auto.
           now rewrite A1.
      * apply fold_and_Forall. clear - HF. induction HF as [|e [w t] es ts [A1 [A2 [A3 [A4 A5]]]] HF IH]; constructor; auto.
    + clear - HF H1. induction HF as [|e [w t] es ts [A1 A2] HF IH]; simpl; constructor; inversion H1; subst; auto.
      destruct H2 as [x Hx]. rewrite A1 in Hx. simpl in *. injection Hx as ->. simpl. auto.
    + apply fold_and_Forall. clear - HF. induction HF as [|e [w t] es ts [A1 [A2 [A3 [A4 A5]]]] HF IH]; constructor; auto.
  - split; [|split].
    + rewrite H3. f_equal. clear - HF. induction HF as [|e t es ts [A2 [A3 A4]] HF IH]; simpl; auto. f_equal; auto.
    + apply fold_and_Forall. clear - HF. induction HF as [|e t es ts [A2 [A3 [A4 A5]]] HF IH]; constructor; auto.
    + apply fold_and_Forall. clear - HF. induction HF as [|e t es ts [A2 [A3 [A4 A5]]] HF IH]; constructor; auto.
Qed.

Lemma scope_back dvars M g u t : holds (Lscope dvars M) g -> unfolds g u t ->
  (forall v, mentions dvars t v <-> M u v) /\ smooth dvars t /\ decomposable dvars t.
Proof.
  intros HH Ht. revert u t Ht.
  refine (unfolds_ind' g _ _ _ _); [intros u d Hk|intros u ts Hk Hne HF|intros u ts Hk HF];
    destruct (HH u _ Hk) as [H1 [H2 H3]]; simpl in *.
  - repeat split; auto; apply H1.
  - assert (Hm : forall v, fold_right or False (map (fun wt => mentions dvars (snd wt) v) ts) <-> M u v).
    { intros v. rewrite H1, fold_or_Exists. clear - HF.
      induction HF as [|e [w t] es ts [A1 [A2 [A3 A4]]] HF IH]; [split; [intros H; inversion H|intros [e [[] _]]]|].
      rewrite Exists_cons, IH. simpl in *. rewrite (A3 v). split.
      * intros [H|[e' [He' Hv]]]; eauto.
      * intros [e' [[->|He'] Hv]]; auto. right. eauto. }
    split; [exact Hm|split; [split|]].
    + intros v Hv. apply Hm in Hv. apply fold_and_Forall. clear - HF H2 Hv.
      induction HF as [|e [w t] es ts [A1 [A2 [A3 A4]]] HF IH]; constructor.
      * simpl. apply A3. apply H2; auto. now left.
      * apply IH. intros. apply H2; auto. now right.
    + apply fold_and_Forall. clear - HF. induction HF as [|e [w t] es ts [A1 [A2 [A3 [A4 A5]]]] HF IH]; constructor; auto.
    + apply fold_and_Forall. clear - HF. induction HF as [|e [w t] es ts [A1 [A2 [A3 [A4 A5]]]] HF IH]; constructor; auto.
  - split; [|split; [|split]].
    + intros v. rewrite H1, fold_or_Exists. clear - HF.
      induction HF as [|e t es ts [A2 [A3 A4]] HF IH]; [split; [intros H; inversion H|intros [e [[] _]]]|].
      rewrite Exists_cons, IH. simpl in *. rewrite (A3 v). split.
      * intros [H|[e' [He' Hv]]]; eauto.
      * intros [e' [[->|He'] Hv]]; auto. right. eauto.
    + apply fold_and_Forall. clear - HF. induction HF as [|e t es ts [A2 [A3 [A4 A5]]] HF IH]; constructor; auto.
    + clear - HF H3. induction HF as [|e t es ts [A2 [A3 A4]] HF IH]; simpl; auto. inversion H3 as [|? ? F1 F2]; subst. split; auto.
      rewrite fold_and_Forall, Forall_map. clear - HF F1 A3. induction HF as [|e' t' es ts [B2 [B3 B4]] HF IH]; constructor; inversion F1; subst; auto.
      intros v [Hv1 Hv2]. apply (H1 v). split; [now apply A3|now apply B3].
    + apply fold_and_Forall. clear - HF. induction HF as [|e t es ts [A2 [A3 [A4 A5]]] HF IH]; constructor; auto.
Qed.

Lemma leaves_back (P : D -> Prop) g u t : (forall x d, node_kind g x = Some (ULeaf d) -> P d) -> unfolds g u t -> all_leaves P t.
Proof.
  intros HP Ht. revert u t Ht.
  refine (unfolds_ind' g _ _ _ _); [intros u d Hk|intros u ts Hk Hne HF|intros u ts Hk HF]; simpl; eauto.
  - apply fold_and_Forall. clear - HF. induction HF as [|e [w t] es ts [A1 [A2 A3]] HF IH]; constructor; auto.
  - apply fold_and_Forall. clear - HF. induction HF as [|e t es ts [A2 A3] HF IH]; constructor; auto.
Qed.

Lemma hered_all_leaves (P : D -> Prop) : hereditary (all_leaves P).
Proof. split; intros l H; simpl in H; now apply fold_and_Forall in H. Qed.
Lemma hered_all_sums P : hereditary (all_sums P).
Proof. split; intros l H; simpl in H; [destruct H as [_ H]|]; now apply fold_and_Forall in H. Qed.
Lemma hered_smooth dvars : hereditary (smooth dvars).
Proof. split; intros l H; simpl in H; [destruct H as [_ H]|]; now apply fold_and_Forall in H. Qed.
Lemma hered_decomposable dvars : hereditary (decomposable dvars).
Proof. split; intros l H; simpl in H; [|destruct H as [_ H]]; now apply fold_and_Forall in H. Qed.
Lemma hered_and P Q : hereditary P -> hereditary Q -> hereditary (fun t => P t /\ Q t).
Proof.
  intros [A1 A2] [B1 B2]. split; intros l [H1 H2].
  - apply A1 in H1. apply B1 in H2. rewrite Forall_forall in *. auto.
  - apply A2 in H1. apply B2 in H2. rewrite Forall_forall in *. auto.
Qed.
Lemma hered_True : hereditary (fun _ => True).
Proof. split; intros l _; apply Forall_forall; auto. Qed.

(** ** Trees described by their unfolding *)
Record tree_circuit g (r : id) (t : pc D) : Prop := {
  tc_tree : tree_shaped g r;
  tc_leaf : leaves_terminal g;
  tc_unf : unfolds g r t;
  tc_fin : fin_sums t
}.

Lemma tc_units (P : pc D -> Prop) g r t : tree_circuit g r t -> hereditary P -> P t ->
  forall u, In u (node_ids g) -> exists t', unfolds g u t' /\ P t'.
Proof.
  intros [Htr Hlt Hu _] HP Ht u Hin. apply (reach_hereditary P g r t); auto.
  apply root_reaches_all; auto; try apply Htr. now apply tree_root.
Qed.

Lemma tc_sum g r t : tree_circuit g r t -> forall u, node_kind g u = Some USum -> out_edges g u <> [].
Proof.
  intros H u Hk. destruct (tc_units _ _ _ _ H hered_True I u) as [t' [Ht' _]]; [eapply node_kind_ids; eauto|].
  destruct Ht'; congruence.
Qed.

Lemma tc_w g r t : tree_circuit g r t -> forall e, In e (g_edges g) -> node_kind g (e_src e) = Some USum -> exists x, e_lw e = Some (Fin x).
Proof.
  intros H e He Hk. destruct (tc_units _ _ _ _ H (hered_all_sums _) (tc_fin _ _ _ H) (e_src e)) as [t' [Ht' Hf]]; [eapply node_kind_ids; eauto|].
  assert (Ho : In e (out_edges g (e_src e))) by now apply out_edges_In.
  destruct Ht' as [u d Hk'|u ts Hk' Hne HF|u ts Hk' HF]; try congruence. destruct Hf as [Hf _].
  clear - HF Hf Ho. induction HF as [|e' [w t] es ts [A1 A2] HF IH]; [destruct Ho|]. inversion Hf; subst.
  destruct Ho as [->|Ho]; auto. simpl in *. destruct w; try tauto. eauto.
Qed.

Lemma tc_alive dead g r t : tree_circuit g r t -> all_leaves (fun d => dead d = false) t -> alive dead g.
Proof.
  intros H Ha u d Hk. destruct (tc_units _ _ _ _ H (hered_all_leaves _) Ha u) as [t' [Ht' Hf]]; [eapply node_kind_ids; eauto|].
  destruct Ht' as [u d' Hk'|u ts Hk' Hne HF|u ts Hk' HF]; rewrite Hk in Hk'; try discriminate.
  injection Hk' as <-. exact Hf.
Qed.

Lemma tc_kinds (P : D -> Prop) g r t : tree_circuit g r t -> all_leaves P t -> forall u d, node_kind g u = Some (ULeaf d) -> P d.
Proof.
  intros H Ha u d Hk. destruct (tc_units _ _ _ _ H (hered_all_leaves _) Ha u) as [t' [Ht' Hf]]; [eapply node_kind_ids; eauto|].
  destruct Ht' as [u d' Hk'|u ts Hk' Hne HF|u ts Hk' HF]; rewrite Hk in Hk'; try discriminate.
  injection Hk' as <-. exact Hf.
Qed.

Lemma holds_fin g r t : tree_circuit g r t -> holds Lfin g.
Proof.
  intros H u k Hk. destruct k as [d| |]; simpl; auto. apply Forall_forall. intros e He. apply out_edges_In in He.
  destruct He as [He Es]. eapply tc_w; eauto. now rewrite Es.
Qed.

Lemma tinv_unfolds pos g r : tinv pos g r -> exists t, unfolds g r t /\ fin_sums t.
Proof.
  intros Ht. pose proof (tinv_tree _ _ _ Ht) as Htr. pose proof Htr as [Hwf [Hac _]].
  destruct (unfolds_total g Hwf Hac) with (u := r) as [t Hu].
  - apply Ht.
  - intros e He Hk. destruct (ti_w _ _ _ Ht e He Hk) as [x Hx]. eauto.
  - apply Ht.
  - exists t. split; auto. unfold fin_sums.
    assert (Hf : forall e, In e (g_edges g) -> node_kind g (e_src e) = Some USum -> exists x, e_lw e = Some (Fin x)) by apply Ht.
    clear - Hu Hf. revert r t Hu.
    refine (unfolds_ind' g _ _ _ _); [intros u d Hk|intros u ts Hk Hne HF|intros u ts Hk HF]; simpl; auto.
    + split.
      * assert (Ho : forall e, In e (out_edges g u) -> exists x, e_lw e = Some (Fin x)).
        { intros e He. apply out_edges_In in He. destruct He as [He Es]. apply Hf; auto. now rewrite Es. }
        clear - HF Ho. induction HF as [|e [w t] es ts [A1 A2] HF IH]; simpl; constructor.
        -- simpl in A1. destruct (Ho e) as [x Hx]; [now left|]. rewrite A1 in Hx. injection Hx as ->. simpl. auto.
        -- apply IH. intros. apply Ho. now right.
      * apply fold_and_Forall. clear - HF. induction HF as [|e [w t] es ts [A1 [A2 A3]] HF IH]; constructor; auto.
    + apply fold_and_Forall. clear - HF. induction HF as [|e t es ts [A2 A3] HF IH]; constructor; auto.
Qed.

(** ** The structural theorem for simplify, in terms of trees *)
Theorem simplify_struct dead g r t : tree_circuit g r t -> all_leaves (fun d => dead d = false) t ->
  exists g' r' t', simplify dead g = Some g' /\ tree_circuit g' r' t' /\
    (forall x, In x (node_ids g') -> In x (node_ids g)) /\
    (forall P, all_leaves P t -> all_leaves P t') /\
    (forall L, closed L -> holds L g -> holds L g' /\ (r' = r \/ exists k e, L r k [e] /\ (forall d, k <> ULeaf d) /\ r' = e_dst e)).
Proof.
  intros H Ha.
  destruct (simplify_tree dead g r (tc_tree _ _ _ H) (tc_leaf _ _ _ H) (tc_sum _ _ _ H) (tc_w _ _ _ H) (tc_alive _ _ _ _ H Ha))
    as [pos [g' [r' [H1 [H2 [H3 [H4 H5]]]]]]].
  destruct (tinv_unfolds _ _ _ H2) as [t' [Hu Hf]].
  exists g', r', t'. split; [auto|split; [|split; [auto|split; [|auto]]]].
  - constructor; auto; [eapply tinv_tree; eauto|apply H2].
  - intros P HP. eapply leaves_back; eauto. intros x d Hk. rewrite H4 in Hk by (eapply node_kind_ids; eauto).
    eapply tc_kinds; eauto.
Qed.

(** Values that are negative are irrelevant: replace them by 0. *)
Definition clip (x : num) : num :=
  match x with Fin y => if Rle_dec 0 y then Fin y else Fin 0 | NInf => Fin 0 | _ => x end.

Lemma clip_nonneg x : nonneg (clip x).
Proof. destruct x; simpl; auto; try lra. destruct (Rle_dec 0 r); simpl; lra. Qed.

Lemma clip_id x : nonneg x -> clip x = x.
Proof. destruct x; simpl; auto; try tauto. intros H. destruct (Rle_dec 0 r); auto. lra. Qed.

Theorem simplify_meaning dead dvars g r t : tree_circuit g r t -> all_leaves (fun d => dead d = false) t -> normalised t ->
  smooth dvars t -> decomposable dvars t ->
  exists g' r' t', simplify dead g = Some g' /\ tree_circuit g' r' t' /\
    (forall val, all_leaves (fun d => nonneg (val d)) t -> semN val t' = semN val t) /\
    (forall P, all_leaves P t -> all_leaves P t') /\
    normalised t' /\ (forall v, mentions dvars t' v <-> mentions dvars t v) /\ smooth dvars t' /\ decomposable dvars t'.
Proof.
  intros H Ha Hn Hs Hd. destruct (simplify_struct dead g r t H Ha) as [g' [r' [t' [H1 [H2 [H3 [H4 H5]]]]]]].
  exists g', r', t'. split; [auto|split; [auto|]].
  assert (Hval : forall val, (forall d, nonneg (val d)) -> semN val t' = semN val t /\ normalised t').
  { intros val Hv.
    assert (HM : holds (Lmean val (FN val g)) g).
    { apply holds_mean. apply (tc_units (fun t => fin_sums t /\ normalised t) g r t); auto.
      - apply hered_and; apply hered_all_sums.
      - split; [apply H|auto]. }
    destruct (H5 _ (Lmean_closed val (FN val g) (fun u => FN_nonneg val g u Hv)) HM) as [HM' Hr].
    destruct (mean_back _ _ _ _ _ HM' (tc_unf _ _ _ H2)) as [E [N _]]. split; auto. rewrite E.
    assert (Er : FN val g r = semN val t) by (unfold FN; now rewrite (the_tree_unfolds _ _ _ (tc_unf _ _ _ H))).
    rewrite <- Er. destruct Hr as [->|[k [e [A [B ->]]]]]; auto. symmetry. eapply Lmean_single; eauto. }
  split; [|split; [auto|split; [apply (Hval (fun _ => Fin 0)); simpl; intros; lra|]]].
  - intros val Hv. rewrite (semN_ext val (fun d => clip (val d)) t), (semN_ext val (fun d => clip (val d)) t').
    + apply Hval. intros d. apply clip_nonneg.
    + eapply all_leaves_impl; [|apply H4; exact Hv]. intros d Hd'. symmetry. now apply clip_id.
    + eapply all_leaves_impl; [|exact Hv]. intros d Hd'. symmetry. now apply clip_id.
  - assert (HM : holds (Lscope dvars (MN dvars g)) g).
    { apply holds_scope. apply (tc_units (fun t => smooth dvars t /\ decomposable dvars t) g r t); auto.
      apply hered_and; [apply hered_smooth|apply hered_decomposable]. }
    destruct (H5 _ (Lscope_closed dvars (MN dvars g)) HM) as [HM' Hr].
    destruct (scope_back _ _ _ _ _ HM' (tc_unf _ _ _ H2)) as [E [S Dc]]. split; [|auto]. intros v. rewrite E.
    assert (Er : forall v, MN dvars g r v <-> mentions dvars t v) by (intros w; unfold MN; now rewrite (the_tree_unfolds _ _ _ (tc_unf _ _ _ H))).
    rewrite <- Er. destruct Hr as [->|[k [e [[A1 _] [B ->]]]]]; [tauto|].
    destruct k as [d| |]; [exfalso; now apply (B d)| |]; simpl in A1; rewrite (A1 v);
      (split; [intros Hv; exists e; auto|intros [e' [[<-|[]] Hv]]; auto]).
Qed.
End Local.
