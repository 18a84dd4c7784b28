(** * EvalFacts: the layer pass computes the recursive evaluation *)
From Coq Require Import List Arith Bool Lia Reals Lra Sorting.Sorted.
From Verif Require Import Num Graph GraphFacts Spec SpecFacts Circuit.
Import ListNotations.

(** ** mapM / foldM *)

Lemma mapM_ext {A B} (f h : A -> option B) l : (forall a, In a l -> f a = h a) -> mapM f l = mapM h l.
Proof.
  induction l; simpl; intros H; auto. rewrite (H a), IHl; auto.
Qed.

Lemma mapM_Forall2 {A B} (f : A -> option B) l bs : mapM f l = Some bs <-> Forall2 (fun a b => f a = Some b) l bs.
Proof.
  revert bs. induction l as [|a l IH]; simpl; intros bs.
  - split; intros H; [injection H as <-; constructor|inversion H; auto].
  - split; intros H.
    + destruct (f a) eqn:E; [|discriminate]. destruct (mapM f l); [|discriminate]. injection H as <-.
      constructor; auto. now apply IH.
    + inversion H; subst. rewrite H2. apply IH in H4. now rewrite H4.
Qed.

Lemma mapM_app {A B} (f : A -> option B) l1 l2 :
  mapM f (l1 ++ l2) = match mapM f l1, mapM f l2 with Some a, Some b => Some (a ++ b) | _, _ => None end.
Proof.
  induction l1; simpl.
  - destruct (mapM f l2); auto.
  - destruct (f a); auto. rewrite IHl1. destruct (mapM f l1); auto. destruct (mapM f l2); auto.
Qed.

Lemma foldM_app {A S} (f : S -> A -> option S) l1 l2 s :
  foldM f (l1 ++ l2) s = match foldM f l1 s with None => None | Some s' => foldM f l2 s' end.
Proof. revert s. induction l1; simpl; intros s; auto. destruct (f s a); auto. Qed.

Lemma upd_same {V} (st : store V) u v : upd st u v u = Some v.
Proof. unfold upd. now rewrite Nat.eqb_refl. Qed.

Lemma upd_other {V} (st : store V) u v x : x <> u -> upd st u v x = st x.
Proof. intros H. unfold upd. apply Nat.eqb_neq in H. now rewrite H. Qed.

Lemma Forall2_length_eq {A B} (P : A -> B -> Prop) l l' : Forall2 P l l' -> length l = length l'.
Proof. induction 1; simpl; auto. Qed.

(** ** Evaluation of trees with exceptions *)
Section Tev.
Context {D V : Type}.
Variable lf : D -> option V.
Variable sumf : list (num * V) -> option V.
Variable prodf : list V -> option V.

Fixpoint tev (t : pc D) : option V :=
  match t with
  | PLeaf d => lf d
  | PSum l => match mapM (fun wt => match tev (snd wt) with Some v => Some (fst wt, v) | None => None end) l with
              | None => None | Some vs => sumf vs end
  | PProd l => match mapM tev l with None => None | Some vs => prodf vs end
  end.

Lemma unfolds_det (g : graph D) u t : unfolds g u t -> forall t', unfolds g u t' -> t = t'.
Proof.
  revert u t. refine (unfolds_ind' g _ _ _ _); [intros u d Hk|intros u ts Hk Hne HF|intros u ts Hk HF]; intros t' H'.
  - inversion H'; subst; congruence.
  - inversion H' as [? ? Hk'|? ts' Hk' _ HF'|? ? Hk']; subst; try congruence. f_equal.
    clear - HF HF'. revert ts' HF'. induction HF as [|e [w t] es ts [H1 [_ IH]] HF IHF]; intros ts' HF'; inversion HF'; subst; auto.
    destruct y as [w' t']. simpl in *. destruct H2 as [H2 H3]. f_equal; auto.
    rewrite H2 in H1. injection H1 as ->. f_equal. now apply IH.
  - inversion H' as [? ? Hk'|? ts' Hk' _ HF'|? ts' Hk' HF']; subst; try congruence. f_equal.
    clear - HF HF'. revert ts' HF'. induction HF as [|e t es ts [_ IH] HF IHF]; intros ts' HF'; inversion HF'; subst; auto.
    f_equal; auto.
Qed.

Lemma unfolds_child (g : graph D) u t : unfolds g u t -> forall e, In e (out_edges g u) ->
  (forall d, node_kind g u <> Some (ULeaf d)) -> exists t', unfolds g (e_dst e) t'.
Proof.
  intros H e He Hnl. destruct H as [u d Hk|u ts Hk Hne HF|u ts Hk HF].
  - exfalso. now apply (Hnl d).
  - clear - HF He. induction HF as [|? ? ? ? [_ H]]; [destruct He|]. destruct He as [<-|He]; eauto.
  - clear - HF He. induction HF as [|? ? ? ? H]; [destruct He|]. destruct He as [<-|He]; eauto.
Qed.

(** Leaf units have no outgoing edges in a circuit. *)
Definition leaves_terminal (g : graph D) : Prop :=
  forall e d, In e (g_edges g) -> node_kind g (e_src e) <> Some (ULeaf d).

Lemma eval_unit_tev (g : graph D) (st : store V) u t :
  unfolds g u t ->
  (forall v t', In v (subcircuits g u) -> unfolds g v t' -> st v = tev t') ->
  eval_unit lf sumf prodf g st u = tev t.
Proof.
  intros H Hst. unfold eval_unit. destruct H as [u d Hk|u ts Hk Hne HF|u ts Hk HF]; rewrite Hk; auto; simpl.
  - assert (E : mapM (fun e => match e_lw e, st (e_dst e) with Some w, Some v => Some (w, v) | _, _ => None end) (out_edges g u)
      = mapM (fun wt => match tev (snd wt) with Some v => Some (fst wt, v) | None => None end) ts); [|now rewrite E].
    assert (Hall : forall e, In e (out_edges g u) -> forall t', unfolds g (e_dst e) t' -> st (e_dst e) = tev t').
    { intros e He t' Ht'. apply Hst; auto. unfold subcircuits. now apply in_map. }
    clear - HF Hall. induction HF as [|e [w t] es ts [H1 H2] HF IHF]; simpl; auto. simpl in *.
    rewrite H1, (Hall e (or_introl eq_refl) t H2). rewrite IHF by (intros; apply Hall; simpl; auto).
    destruct (tev t); auto.
  - assert (E : mapM (fun e => st (e_dst e)) (out_edges g u) = mapM tev ts); [|now rewrite E].
    assert (Hall : forall e, In e (out_edges g u) -> forall t', unfolds g (e_dst e) t' -> st (e_dst e) = tev t').
    { intros e He t' Ht'. apply Hst; auto. unfold subcircuits. now apply in_map. }
    clear - HF Hall. induction HF as [|e t es ts H HF IHF]; simpl; auto.
    rewrite (Hall e (or_introl eq_refl) t H). rewrite IHF by (intros; apply Hall; simpl; auto). auto.
Qed.

Lemma tev_child_defined (g : graph D) u t v : unfolds g u t -> tev t <> None -> In v (subcircuits g u) ->
  (forall d, node_kind g u <> Some (ULeaf d)) ->
  exists t', unfolds g v t' /\ tev t' <> None.
Proof.
  intros H Hd Hv Hnl. unfold subcircuits in Hv. apply in_map_iff in Hv. destruct Hv as [e [<- He]].
  destruct H as [u d Hk|u ts Hk Hne HF|u ts Hk HF]; simpl in Hd.
  - exfalso. now apply (Hnl d).
  - assert (Hm : mapM (fun wt => match tev (snd wt) with Some v => Some (fst wt, v) | None => None end) ts <> None)
      by (destruct (mapM _ ts); congruence). clear - HF He Hm.
    induction HF as [|e' [w t] es ts [H1 H2] HF IHF]; [destruct He|]. simpl in *.
    destruct (tev t) eqn:E; [|congruence]. destruct He as [<-|He].
    + exists t. split; auto. congruence.
    + apply IHF; auto. destruct (mapM _ ts); congruence.
  - assert (Hm : mapM tev ts <> None) by (destruct (mapM _ ts); congruence). clear - HF He Hm.
    induction HF as [|e' t es ts H HF IHF]; [destruct He|]. simpl in *.
    destruct (tev t) eqn:E; [|congruence]. destruct He as [<-|He].
    + exists t. split; auto. congruence.
    + apply IHF; auto. destruct (mapM _ ts); congruence.
Qed.

Lemma reach_unfolds (g : graph D) r t u : leaves_terminal g -> unfolds g r t -> tev t <> None -> reach g r u ->
  exists t', unfolds g u t' /\ tev t' <> None.
Proof.
  intros Hlt H Hd Hr. induction Hr as [|v e Hv IH Hin Hs]; [eauto|]. destruct IH as [tv [Htv Hdv]].
  eapply tev_child_defined; eauto.
  - apply subcircuits_In. exists e. auto.
  - intros d Hk. subst v. eapply Hlt; eauto.
Qed.

(** A pass over any order in which children precede their parents. *)
Lemma eval_order_correct (g : graph D) order st :
  NoDup order -> topo_up g order ->
  (forall u, In u order -> exists t, unfolds g u t /\ tev t <> None) ->
  exists st', eval_order lf sumf prodf g order st = Some st' /\
    (forall u t, In u order -> unfolds g u t -> st' u = tev t) /\
    (forall u, ~ In u order -> st' u = st u).
Proof.
  intros Hnd Htopo Hall.
  assert (Hmain : forall post pre st0, order = pre ++ post ->
    (forall u t, In u pre -> unfolds g u t -> st0 u = tev t) ->
    exists st', eval_order lf sumf prodf g post st0 = Some st' /\
      (forall u t, In u order -> unfolds g u t -> st' u = tev t) /\
      (forall u, ~ In u post -> st' u = st0 u)).
  { induction post as [|u post IH]; intros pre st0 Heq Hpre.
    - exists st0. simpl. rewrite app_nil_r in Heq. subst. auto.
    - destruct (Hall u) as [t [Ht Hd]]; [rewrite Heq; apply in_app_iff; right; now left|].
      assert (Hu : eval_unit lf sumf prodf g st0 u = tev t).
      { apply eval_unit_tev; auto. intros v t' Hv Ht'. apply Hpre; auto. eapply Htopo; eauto. }
      destruct (tev t) as [v|] eqn:Ev; [|congruence].
      destruct (IH (pre ++ [u]) (upd st0 u v)) as [st' [H1 [H2 H3]]].
      + now rewrite <- app_assoc.
      + intros x tx Hx Htx. apply in_app_iff in Hx. destruct (Nat.eq_dec x u) as [->|Hne].
        * rewrite upd_same. rewrite <- (unfolds_det _ _ _ Ht _ Htx). auto.
        * rewrite upd_other by auto. apply Hpre; auto. destruct Hx as [Hx|[Hx|[]]]; congruence.
      + exists st'. unfold eval_order in *. simpl. rewrite Hu. split; auto. split; auto.
        intros x Hx. rewrite H3; [|intros H; apply Hx; now right]. apply upd_other. intros ->. apply Hx. now left. }
  apply (Hmain order []); auto. simpl; tauto.
Qed.

(** The main evaluation theorem: the value at the root does not depend on leftovers of earlier queries. *)
Theorem run_pass_correct (g : graph D) r t v st :
  wf g -> leaves_terminal g -> root g = Some r -> graded g r -> unfolds g r t -> tev t = Some v ->
  exists st', run_pass lf sumf prodf g st = Some (v, st') /\
    (forall u t', reach g r u -> unfolds g u t' -> st' u = tev t') /\
    (forall u, ~ reach g r u -> st' u = st u).
Proof.
  intros Hwf Hlt Hr Hg Ht Hv. destruct (bottom_up_spec g r Hwf Hr) as [ls [Hls [Hb _]]].
  assert (Hin : forall x, In x (concat (rev ls)) <-> reach g r x).
  { intros x. rewrite concat_rev_In. now apply layers_from_In. }
  destruct (eval_order_correct g (concat (rev ls)) st) as [st' [H1 [H2 H3]]].
  - pose proof (layers_from_NoDup _ _ _ Hls) as Hnd. clear - Hnd.
    induction ls as [|l ls IH]; simpl in *; [constructor|]. rewrite concat_app. simpl. rewrite app_nil_r.
    rewrite <- (rev_involutive (concat (rev ls) ++ l)). apply NoDup_rev. rewrite rev_app_distr.
    assert (H : Permutation.Permutation (l ++ concat ls) (rev l ++ rev (concat (rev ls)))).
    { apply Permutation.Permutation_app; [apply Permutation.Permutation_rev|].
      etransitivity; [|apply Permutation.Permutation_rev]. clear.
      induction ls; simpl; auto. rewrite concat_app. simpl. rewrite app_nil_r.
      etransitivity; [apply Permutation.Permutation_app_comm|]. now apply Permutation.Permutation_app_tail. }
    eapply Permutation.Permutation_NoDup; eauto.
  - eapply graded_topo_up; eauto.
  - intros u Hu. apply Hin in Hu. eapply reach_unfolds; eauto. congruence.
  - exists st'. unfold run_pass. rewrite Hr, Hb, H1, (H2 r t), Hv; auto.
    + split; auto. split.
      * intros u t' Hu Ht'. apply H2; auto. now apply Hin.
      * intros u Hu. apply H3. now rewrite Hin.
    + apply Hin. apply reach_refl.
Qed.
End Tev.

(** ** Totality of the tree evaluation and its value *)

Section Sem.
Context {D : Type}.

Fixpoint sums_nonempty (t : pc D) : Prop :=
  match t with
  | PLeaf _ => True
  | PSum l => l <> [] /\ Forall (fun x => x) (map (fun wt => sums_nonempty (snd wt)) l)
  | PProd l => Forall (fun x => x) (map sums_nonempty l)
  end.

Lemma Forall_map_id {A} (P : A -> Prop) l : Forall (fun x => x) (map P l) <-> Forall P l.
Proof. rewrite Forall_map. reflexivity. Qed.

Lemma unfolds_sums_nonempty (g : graph D) u t : unfolds g u t -> sums_nonempty t.
Proof.
  revert u t. refine (unfolds_ind' g _ _ _ _); [intros u d Hk|intros u ts Hk Hne HF|intros u ts Hk HF]; simpl; auto.
  - split.
    + intros ->. inversion HF. subst. congruence.
    + apply Forall_map_id. clear - HF. induction HF as [|? ? ? ? [_ [_ H]]]; constructor; auto.
  - apply Forall_map_id. clear - HF. induction HF as [|? ? ? ? [_ H]]; constructor; auto.
Qed.

(** Probability / cdf pass. *)
Lemma tev_forward (val : D -> num) t :
  tev (fun d => Some (val d)) sum_forward prod_forward t = Some (semN val t).
Proof.
  induction t as [d|l IH|l IH] using pc_ind'; simpl; auto.
  - replace (mapM _ l) with (Some (map (fun wt => (fst wt, semN val (snd wt))) l)).
    + unfold sum_forward. now rewrite map_map.
    + symmetry. apply mapM_Forall2. induction IH as [|[w t] l H _ IHl]; simpl; constructor; auto. simpl in *. now rewrite H.
  - replace (mapM _ l) with (Some (map (semN val) l)); auto.
    symmetry. apply mapM_Forall2. induction IH; simpl; constructor; auto.
Qed.

(** Log-likelihood pass: the exponential of the result is the density. *)
Lemma tev_log_forward (lf : D -> option num) (val : D -> num) t :
  sums_nonempty t -> all_leaves (fun d => exists v, lf d = Some v /\ nexp v = val d) t ->
  exists v, tev lf sum_log_forward prod_log_forward t = Some v /\ nexp v = semN val t.
Proof.
  induction t as [d|l IH|l IH] using pc_ind'; simpl; auto.
  - intros [Hne Hs] Hl. rewrite Forall_map_id in Hs. apply fold_and_Forall in Hl.
    assert (H : exists vs, mapM (fun wt => match tev lf sum_log_forward prod_log_forward (snd wt) with
        Some v => Some (fst wt, v) | None => None end) l = Some vs /\
        map (fun p => nexp (nadd (fst p) (snd p))) vs = map (fun wt => nmul (nexp (fst wt)) (semN val (snd wt))) l).
    { clear Hne. induction IH as [|[w t] l H _ IHl]; [exists []; auto|].
      inversion Hs; subst. inversion Hl; subst. simpl in *.
      destruct (H H2 H4) as [v [Hv1 Hv2]]. destruct (IHl H3 H5) as [vs [Hvs1 Hvs2]].
      exists ((w, v) :: vs). rewrite Hv1, Hvs1. split; auto. simpl. now rewrite Hvs2, nexp_add, Hv2. }
    destruct H as [vs [H1 H2]]. rewrite H1.
    assert (vs <> []). { intros ->. simpl in H2. destruct l; [congruence|discriminate]. }
    destruct vs as [|p vs]; [congruence|]. eexists. split; [reflexivity|].
    rewrite nexp_logsumexp, map_map. now rewrite H2.
  - intros Hs Hl. rewrite Forall_map_id in Hs. apply fold_and_Forall in Hl.
    assert (H : exists vs, mapM (tev lf sum_log_forward prod_log_forward) l = Some vs /\ map nexp vs = map (semN val) l).
    { induction IH as [|t l H _ IHl]; [exists []; auto|]. inversion Hs; subst. inversion Hl; subst.
      destruct (H H2 H4) as [v [Hv1 Hv2]]. destruct (IHl H3 H5) as [vs [Hvs1 Hvs2]].
      exists (v :: vs). simpl. rewrite Hv1, Hvs1. split; auto. now rewrite Hv2, Hvs2. }
    destruct H as [vs [H1 H2]]. rewrite H1. eexists. split; [reflexivity|]. now rewrite nexp_nsum, H2.
Qed.

(** Agreement of the float and the real semantics on finite leaf values. *)
Lemma semN_semR (val : D -> R) t : all_sums (Forall lw_ok) t -> semN (fun d => Fin (val d)) t = Fin (semR val t).
Proof.
  induction t as [d|l IH|l IH] using pc_ind'; simpl; auto.
  - intros [Hw Hs]. apply fold_and_Forall in Hs. rewrite <- nsum_Fin, map_map. f_equal.
    rewrite Forall_map in Hw.
    induction IH as [|[w t] l H _ IHl]; simpl; auto. inversion Hs; subst. inversion Hw; subst. f_equal; auto.
    simpl in *. rewrite H by auto. destruct w; simpl in *; try tauto; f_equal; ring.
  - intros Hs. apply fold_and_Forall in Hs. rewrite <- nprod_Fin, map_map. f_equal.
    induction IH as [|t l H _ IHl]; simpl; auto. inversion Hs; subst. f_equal; auto.
Qed.

Lemma all_leaves_impl (P Q : D -> Prop) t : (forall d, P d -> Q d) -> all_leaves P t -> all_leaves Q t.
Proof.
  intros HPQ. induction t as [d|l IH|l IH] using pc_ind'; simpl; auto.
  - rewrite !fold_and_Forall. intros H. induction IH; inversion H; subst; constructor; auto.
  - rewrite !fold_and_Forall. intros H. induction IH; inversion H; subst; constructor; auto.
Qed.

Lemma all_leaves_True (P : D -> Prop) t : (forall d, P d) -> all_leaves P t.
Proof.
  intros HP. induction t as [d|l IH|l IH] using pc_ind'; simpl; auto; rewrite !fold_and_Forall; auto.
Qed.

(** ** Variables *)

Lemma sset_insert_In v l x : In x (sset_insert v l) <-> x = v \/ In x l.
Proof.
  induction l as [|w l IH]; simpl; [intuition|].
  destruct (Nat.compare v w) eqn:E; simpl.
  - apply Nat.compare_eq in E. subst. intuition.
  - intuition.
  - rewrite IH. intuition.
Qed.

Lemma sset_of_In l x : In x (sset_of l) <-> In x l.
Proof. induction l; simpl; [tauto|]. rewrite sset_insert_In, IHl. intuition. Qed.

Lemma sset_union_In a b x : In x (sset_union a b) <-> In x a \/ In x b.
Proof. unfold sset_union. induction b; simpl; [tauto|]. rewrite sset_insert_In, IHb. intuition. Qed.

Lemma sset_insert_sorted v l : StronglySorted lt l -> StronglySorted lt (sset_insert v l).
Proof.
  induction 1 as [|w l Hs IH Hf]; simpl; [repeat constructor|].
  destruct (Nat.compare v w) eqn:E.
  - now constructor.
  - apply Nat.compare_lt_iff in E. constructor; [now constructor|]. constructor; auto.
    eapply Forall_impl; [|exact Hf]. intros; lia.
  - apply Nat.compare_gt_iff in E. constructor; auto. apply Forall_forall. intros x Hx.
    apply sset_insert_In in Hx. destruct Hx as [->|Hx]; [lia|]. rewrite Forall_forall in Hf. auto.
Qed.

Lemma sset_of_sorted l : StronglySorted lt (sset_of l).
Proof. induction l; simpl; [constructor|]. now apply sset_insert_sorted. Qed.

Lemma sset_union_sorted a b : StronglySorted lt a -> StronglySorted lt (sset_union a b).
Proof. unfold sset_union. induction b; simpl; auto. intros. apply sset_insert_sorted. auto. Qed.

Lemma SSorted_NoDup l : StronglySorted lt l -> NoDup l.
Proof.
  induction 1; constructor; auto. intros Hin. rewrite Forall_forall in H0. specialize (H0 _ Hin). lia.
Qed.

Lemma fold_union_spec ls : forall acc, StronglySorted lt acc ->
  StronglySorted lt (fold_left sset_union ls acc) /\
  (forall x, In x (fold_left sset_union ls acc) <-> In x acc \/ Exists (fun l => In x l) ls).
Proof.
  induction ls as [|l ls IH]; simpl; intros acc Hacc.
  - split; auto. intros x. split; auto. intros [H|H]; auto. inversion H.
  - destruct (IH (sset_union acc l)) as [H1 H2]; [now apply sset_union_sorted|].
    split; auto. intros x. rewrite H2, sset_union_In, Exists_cons. tauto.
Qed.
End Sem.
