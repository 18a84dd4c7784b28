(** * SpecFacts: induction principles and basic facts about Spec.v *)
From Coq Require Import List Arith Bool Lia Reals Lra.
From Verif Require Import Num Graph GraphFacts Spec.
Import ListNotations.

Lemma fold_and_Forall {A} (P : A -> Prop) l : fold_right and True (map P l) <-> Forall P l.
Proof. induction l; simpl; split; intros H; auto; [constructor; tauto|inversion H; tauto]. Qed.

Lemma fold_or_Exists {A} (P : A -> Prop) l : fold_right or False (map P l) <-> Exists P l.
Proof.
  induction l; simpl; split; intros H; try tauto.
  - inversion H.
  - destruct H; [now left|right; tauto].
  - inversion H; tauto.
Qed.

Section Ind.
Context {D : Type}.

Lemma pc_ind' (P : pc D -> Prop) :
  (forall d, P (PLeaf d)) ->
  (forall l, Forall (fun wt => P (snd wt)) l -> P (PSum l)) ->
  (forall l, Forall P l -> P (PProd l)) ->
  forall t, P t.
Proof.
  intros HL HS HP. fix IH 1. intros [d|l|l].
  - apply HL.
  - apply HS. induction l as [|[w t] l IHl]; constructor; [apply IH|apply IHl].
  - apply HP. induction l as [|t l IHl]; constructor; [apply IH|apply IHl].
Qed.

Lemma unfolds_ind' (g : graph D) (P : id -> pc D -> Prop) :
  (forall u d, node_kind g u = Some (ULeaf d) -> P u (PLeaf d)) ->
  (forall u ts, node_kind g u = Some USum -> out_edges g u <> [] ->
     Forall2 (fun e wt => e_lw e = Some (fst wt) /\ unfolds g (e_dst e) (snd wt) /\ P (e_dst e) (snd wt))
       (out_edges g u) ts -> P u (PSum ts)) ->
  (forall u ts, node_kind g u = Some UProd ->
     Forall2 (fun e t => unfolds g (e_dst e) t /\ P (e_dst e) t) (out_edges g u) ts -> P u (PProd ts)) ->
  forall u t, unfolds g u t -> P u t.
Proof.
  intros HL HS HP. fix IH 3. intros u t [u' d Hk|u' ts Hk Hne HF|u' ts Hk HF].
  - now apply HL.
  - apply HS; auto. clear Hk Hne. induction HF as [|e wt es ts [H1 H2] HF IHF]; constructor; auto.
  - apply HP; auto. clear Hk. induction HF as [|e t' es ts H HF IHF]; constructor; auto.
Qed.
End Ind.
