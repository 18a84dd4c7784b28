(** * TreeProb: facts about the real-valued mixture-of-products value of a tree *)
From Coq Require Import List Arith Bool Lia Reals Lra.
From Verif Require Import Num Graph GraphFacts Spec SpecFacts.
Import ListNotations.
Local Open Scope R_scope.

Section Tree.
Context {D : Type}.
Implicit Types t : pc D.

Lemma wexp_nonneg w : 0 <= wexp w.
Proof. destruct w; simpl; try lra. left. apply exp_pos. Qed.

Lemma all_sums_impl (P Q : list num -> Prop) t : (forall l, P l -> Q l) -> all_sums P t -> all_sums Q t.
Proof.
  intros HPQ. induction t as [d|l IH|l IH] using pc_ind'; simpl; auto.
  - intros [H1 H2]. split; auto. apply fold_and_Forall in H2. apply fold_and_Forall. rewrite Forall_forall in *. auto.
  - intros H2. apply fold_and_Forall in H2. apply fold_and_Forall. rewrite Forall_forall in *. auto.
Qed.

Lemma normalised_lw_ok t : normalised t -> all_sums (Forall lw_ok) t.
Proof. apply all_sums_impl. now intros l [H _]. Qed.

Lemma semR_nonneg val t : all_leaves (fun d => 0 <= val d) t -> 0 <= semR val t.
Proof.
  induction t as [d|l IH|l IH] using pc_ind'; simpl; auto; intros H; apply fold_and_Forall in H.
  - apply Rsum_nonneg, Forall_map. rewrite Forall_forall in *. intros wt Hin. apply Rmult_le_pos; [apply wexp_nonneg|auto].
  - apply Rprod_nonneg, Forall_map. rewrite Forall_forall in *. auto.
Qed.

Lemma Rprod_le {A} (f h : A -> R) l : (forall x, In x l -> 0 <= f x <= h x) -> Rprod (map f l) <= Rprod (map h l).
Proof.
  induction l as [|a l IH]; simpl; [lra|]. intros H.
  apply Rmult_le_compat; auto; try apply H; auto. apply Rprod_nonneg, Forall_map, Forall_forall. intros x Hx. apply H. auto.
Qed.

Lemma semR_mono val val' t : all_leaves (fun d => 0 <= val d <= val' d) t -> semR val t <= semR val' t.
Proof.
  induction t as [d|l IH|l IH] using pc_ind'; simpl; try tauto; intros H; apply fold_and_Forall in H.
  - apply Rsum_le. rewrite Forall_forall in *. intros wt Hin. apply Rmult_le_compat_l; [apply wexp_nonneg|auto].
  - apply Rprod_le. rewrite Forall_forall in *. intros t Hin. split; auto. apply semR_nonneg.
    specialize (H t Hin). clear - H. induction t as [d|l IH|l IH] using pc_ind'; simpl in *; try tauto;
      apply fold_and_Forall in H; apply fold_and_Forall; rewrite Forall_forall in *; auto.
Qed.

Lemma semR_ext val val' t : all_leaves (fun d => val d = val' d) t -> semR val t = semR val' t.
Proof.
  induction t as [d|l IH|l IH] using pc_ind'; simpl; auto; intros H; apply fold_and_Forall in H; rewrite Forall_forall in *.
  - apply Rsum_ext. intros wt Hin. now rewrite IH by auto.
  - apply Rprod_ext. auto.
Qed.

Lemma semN_ext (val val' : D -> num) t : all_leaves (fun d => val d = val' d) t -> semN val t = semN val' t.
Proof.
  induction t as [d|l IH|l IH] using pc_ind'; simpl; auto; intros H; apply fold_and_Forall in H; rewrite Forall_forall in *.
  - f_equal. apply map_ext_in. intros wt Hin. now rewrite IH by auto.
  - f_equal. apply map_ext_in. auto.
Qed.

Lemma Rprod_ones {A} (f : A -> R) l : (forall x, In x l -> f x = 1) -> Rprod (map f l) = 1.
Proof. induction l; simpl; auto. intros H. rewrite H, IHl; auto. ring. Qed.

Lemma semR_one val t : normalised t -> all_leaves (fun d => val d = 1) t -> semR val t = 1.
Proof.
  unfold normalised. induction t as [d|l IH|l IH] using pc_ind'; simpl; auto.
  - intros [[_ Hw] Hn] H. apply fold_and_Forall in H, Hn. rewrite Forall_forall in *.
    rewrite <- Hw, map_map. apply Rsum_ext. intros wt Hin. rewrite IH by auto. ring.
  - intros Hn H. apply fold_and_Forall in H, Hn. rewrite Forall_forall in *. apply Rprod_ones. auto.
Qed.

Lemma semR_le_1 val t : normalised t -> all_leaves (fun d => 0 <= val d <= 1) t -> semR val t <= 1.
Proof.
  intros Hn H. rewrite <- (semR_one (fun _ => 1) t Hn); [now apply semR_mono|].
  clear. induction t as [d|l IH|l IH] using pc_ind'; simpl; auto; apply fold_and_Forall; auto.
Qed.

(** ** Splitting one variable *)
Variable dvars : D -> list nat.

Lemma semR_add v valA valB valC t : smooth dvars t -> decomposable dvars t ->
  all_leaves (fun d => (In v (dvars d) -> valC d = valA d + valB d) /\
                       (~ In v (dvars d) -> valC d = valA d /\ valC d = valB d)) t ->
  (mentions dvars t v -> semR valC t = semR valA t + semR valB t) /\
  (~ mentions dvars t v -> semR valC t = semR valA t /\ semR valC t = semR valB t).
Proof.
  induction t as [d|l IH|l IH] using pc_ind'; simpl; auto.
  - intros [Hsm Hs] Hd Hl. apply fold_and_Forall in Hs, Hd, Hl. rewrite Forall_forall in *. split.
    + intros Hm. assert (Hall := Hsm v Hm). apply fold_and_Forall in Hall. rewrite Forall_forall in Hall.
      rewrite <- Rsum_plus. apply Rsum_ext. intros wt Hin. destruct (IH wt Hin) as [H1 _]; auto. rewrite H1 by auto. ring.
    + intros Hm. rewrite fold_or_Exists in Hm. assert (Hno : forall wt, In wt l -> ~ mentions dvars (snd wt) v).
      { intros wt Hin H. apply Hm. apply Exists_exists. eauto. }
      split; apply Rsum_ext; intros wt Hin; destruct (IH wt Hin) as [_ H2]; auto; destruct (H2 (Hno wt Hin)) as [E1 E2];
        [now rewrite E1|now rewrite E2].
  - intros Hs [Hdis Hd] Hl. apply fold_and_Forall in Hs, Hd, Hl. rewrite Forall_forall in *.
    assert (Hrest : forall l', incl l' l -> (forall t, In t l' -> ~ mentions dvars t v) ->
      Rprod (map (semR valC) l') = Rprod (map (semR valA) l') /\ Rprod (map (semR valC) l') = Rprod (map (semR valB) l')).
    { intros l' Hi Hno. split; apply Rprod_ext; intros t Ht; destruct (IH t (Hi t Ht)) as [_ H2]; auto;
        destruct (H2 (Hno t Ht)) as [E1 E2]; auto. }
    split.
    + intros Hm. rewrite fold_or_Exists in Hm.
      assert (Hinc : incl l l) by (intros x; auto). revert Hm Hdis Hinc. generalize l at 1 2 3 5 6 7.
      intros l0. induction l0 as [|t l0 IHl0]; intros Hm Hdis Hinc; [inversion Hm|].
      simpl in Hdis. destruct Hdis as [Hdis0 Hdis]. apply fold_and_Forall in Hdis0.
      rewrite Forall_map in Hdis0. simpl.
      assert (Hin : In t l) by (apply Hinc; now left).
      assert (Hinc' : incl l0 l) by (intros x Hx; apply Hinc; now right).
      assert (Hdis0' : forall t', In t' l0 -> ~ (mentions dvars t v /\ mentions dvars t' v)).
      { intros t' Ht'. rewrite Forall_forall in Hdis0. now apply Hdis0. }
      destruct (IH t Hin) as [H1 H2]; auto.
      inversion Hm as [? ? Hmt|? ? Hmt]; subst.
      * destruct (Hrest l0 Hinc') as [E1 E2].
        { intros t' Ht' H. apply (Hdis0' t' Ht'). auto. }
        rewrite H1, <- E1, <- E2 by auto. ring.
      * assert (Hnt : ~ mentions dvars t v).
        { intros H. apply Exists_exists in Hmt. destruct Hmt as [t' [Ht' Hm']]. apply (Hdis0' t' Ht'). auto. }
        destruct (H2 Hnt) as [E1 E2]. rewrite IHl0 by auto. rewrite <- E1, <- E2. ring.
    + intros Hm. apply Hrest; [intros x; auto|]. intros t Ht H. apply Hm. apply fold_or_Exists, Exists_exists. eauto.
Qed.
End Tree.
