(** * Property C39: the forward pass of a Bayesian network *)
From Coq Require Import List Arith Bool Lia ZArith Reals Lra Permutation.
From Verif Require Import Num Graph GraphFacts Spec SpecFacts Circuit Interval Dist DistFacts Conditional PropertiesDist FromMixture
  Multinomial MultinomialFacts ModeFacts Layout Mixture Interaction TreeLocal MountTree Bayes BayesFacts.
Import ListNotations.
Local Set Bullet Behavior "Strict Subproofs".
Local Open Scope R_scope.

(** ** The specification *)

(** A proper network: duplicate-free domains, a distribution at the root, and a distribution over the own domain for every
    state of the parent. *)
Definition distribution_over (dom : list Z) (p : dict) : Prop := dict_ok p /\ incl (keys p) dom /\ Rsum (vals p) = 1.

Fixpoint cpt_ok (pdom : list Z) (t : cpt) : Prop :=
  match t with
  | CPT v dom cpd cs =>
      NoDup dom /\ dom <> [] /\ NoDup (map fst cpd) /\ (forall s, In s (map fst cpd) <-> In s pdom) /\
      Forall (fun kr => distribution_over dom (snd kr)) cpd /\ fold_right and True (map (cpt_ok dom) cs)
  end.
Fixpoint cpt_vars (t : cpt) : list nat := match t with CPT v _ _ cs => v :: flat_map cpt_vars cs end.

Definition network_ok (b : network) : Prop :=
  NoDup (n_dom b) /\ n_dom b <> [] /\ distribution_over (n_dom b) (n_probs b) /\ Forall (cpt_ok (n_dom b)) (n_children b) /\
  NoDup (n_var b :: flat_map cpt_vars (n_children b)).

(** An event: a set of states of every variable. *)
Fixpoint cpt_event (e : nat -> list Z) (t : cpt) : Prop :=
  match t with CPT v dom _ cs => NoDup (e v) /\ incl (e v) dom /\ fold_right and True (map (cpt_event e) cs) end.
Definition network_event (e : nat -> list Z) (b : network) : Prop :=
  NoDup (e (n_var b)) /\ incl (e (n_var b)) (n_dom b) /\ Forall (cpt_event e) (n_children b).

(** The nodes of the result, each with the tables on the way to it: variable and rows. *)
Definition step : Type := nat * list (Z * dict).
Inductive path_to : list fnode -> list step -> option dict -> num -> Prop :=
| path_here fs v dom cpd msg fp cs : In (FNode v dom cpd msg fp cs) fs -> path_to fs [(v, cpd)] msg fp
| path_down fs v dom cpd msg0 fp0 cs l msg fp : In (FNode v dom cpd msg0 fp0 cs) fs -> path_to cs l msg fp -> path_to fs ((v, cpd) :: l) msg fp.

(** Probability of the states [ss] of the nodes on a path, given the state [s] before them. *)
Fixpoint chain_prob (s : Z) (l : list step) (ss : list Z) : R :=
  match l, ss with
  | [], [] => 1
  | (_, cpd) :: l', t :: ss' => tab cpd s t * chain_prob t l' ss'
  | _, _ => 0
  end.

(** Sum of the probabilities of all states of root and path that agree with the event, weighted by [g] of the last state.
    [a] is the weight of the states of the root. *)
Definition evidence (e : nat -> list Z) (a : Z -> R) (e0 : list Z) (l : list step) (g : Z -> R) : R :=
  Rsum (map (fun s => Rsum (map (fun ss => a s * chain_prob s l ss * g (last (s :: ss) s)) (cart (map (fun x => e (fst x)) l)))) e0).
Definition is_state (k : Z) (x : Z) : R := ind (Z.eqb x k).

(** The message is the distribution of the last variable given all the evidence; None if the evidence is impossible. *)
Definition message_right (e : nat -> list Z) (a : Z -> R) (e0 : list Z) (l : list step) (msg : option dict) : Prop :=
  let P := evidence e a e0 l (fun _ => 1) in
  (P = 0 -> msg = None) /\ (P <> 0 -> exists m, msg = Some m /\ dict_ok m /\ forall k, dget m k = evidence e a e0 l (is_state k) / P).

Definition C39_messages : Prop := forall b e, network_ok b -> network_event e b ->
  exists msg fp fs, forward_pass e b = Some (msg, fp, fs) /\ message_right e (dget (n_probs b)) (e (n_var b)) [] msg /\
    forall l msg' fp', path_to fs l msg' fp' -> message_right e (dget (n_probs b)) (e (n_var b)) l msg'.
Definition C39_probabilities : Prop := forall b e, network_ok b -> network_event e b ->
  exists msg fp fs, forward_pass e b = Some (msg, fp, fs) /\ fp = Fin (evidence e (dget (n_probs b)) (e (n_var b)) [] (fun _ => 1)) /\
    forall l msg' fp', path_to fs l msg' fp' -> fp' = Fin (evidence e (dget (n_probs b)) (e (n_var b)) l (fun _ => 1)).

(** ** The specification, one table at a time *)
Definition next (a : Z -> R) (e0 : list Z) (cpd : list (Z * dict)) (t : Z) : R := Rsum (map (fun s => a s * tab cpd s t) e0).

Lemma last_default {A} (l : list A) x y : l <> [] -> last l x = last l y.
Proof. induction l as [|a l IH]; [contradiction|]. intros _. destruct l as [|b l]; [reflexivity|]. apply IH. discriminate. Qed.

Lemma evidence_nil e a e0 g : evidence e a e0 [] g = Rsum (map (fun s => a s * g s) e0).
Proof. unfold evidence. apply Rsum_ext. intros s _. cbn. ring. Qed.

Lemma Rsum_flat_map {A B} (f : B -> R) (h : A -> list B) l : Rsum (map f (flat_map h l)) = Rsum (map (fun a => Rsum (map f (h a))) l).
Proof. induction l as [|a l IH]; [reflexivity|]. cbn [flat_map]. rewrite map_app, Rsum_app, IH. reflexivity. Qed.

Lemma evidence_cons e a e0 v cpd l g : evidence e a e0 ((v, cpd) :: l) g = evidence e (next a e0 cpd) (e v) l g.
Proof.
  unfold evidence at 1. cbn [map fst cart].
  transitivity (Rsum (map (fun s => Rsum (map (fun t => Rsum (map (fun ss => a s * tab cpd s t * (chain_prob t l ss * g (last (t :: ss) t))) (cart (map (fun x => e (fst x)) l)))) (e v))) e0)).
  - apply Rsum_ext. intros s _. rewrite Rsum_flat_map. apply Rsum_ext. intros t _. rewrite map_map. apply Rsum_ext. intros ss _. cbn [chain_prob].
    replace (last (s :: t :: ss) s) with (last (t :: ss) t) by (change (last (s :: t :: ss) s) with (last (t :: ss) s); apply last_default; discriminate). ring.
  - rewrite Rsum_swap. unfold evidence. apply Rsum_ext. intros t _. rewrite Rsum_swap. apply Rsum_ext. intros ss _. unfold next.
    rewrite (Rsum_ext _ (fun s => chain_prob t l ss * g (last (t :: ss) t) * (a s * tab cpd s t))) by (intros; ring). rewrite Rsum_scal. ring.
Qed.

(** ** One table *)
Definition total (a : Z -> R) (l : list Z) : R := Rsum (map a l).

(** The message is [a], normalised over [e0]. *)
Definition holds (msg : option dict) (a : Z -> R) (e0 : list Z) : Prop :=
  (total a e0 = 0 /\ msg = None) \/
  (0 < total a e0 /\ exists m, msg = Some m /\ dict_ok m /\ incl (keys m) e0 /\ forall k, dget m k = ev_ind e0 k * a k / total a e0).

Lemma tab_nonneg cpd s k : (forall row, row_of cpd s = Some row -> dict_ok row) -> 0 <= tab cpd s k.
Proof. intros H. unfold tab. destruct (row_of cpd s) as [row|]; [|lra]. now apply dget_nonneg, H. Qed.

Lemma next_nonneg a e0 cpd : (forall s, In s e0 -> 0 <= a s) -> rows_ok cpd e0 -> forall t, 0 <= next a e0 cpd t.
Proof.
  intros Ha Hr t. apply Rsum_nonneg. apply Forall_map. apply Forall_forall. intros s Hs. apply Rmult_le_pos; [auto|]. destruct (Hr s Hs) as (row & E & Ho).
  rewrite (tab_row cpd s row) by auto. now apply dget_nonneg.
Qed.

Lemma total_next a e0 cpd ev : total (next a e0 cpd) ev = Rsum (map (fun s => a s * tmass cpd s ev) e0).
Proof. unfold total, next. rewrite Rsum_swap. apply Rsum_ext. intros s _. unfold tmass. now rewrite <- Rsum_scal. Qed.

(** The part of the table that is used is constant: the evidence at the node says nothing about its parent. *)
Definition steady (cpd : list (Z * dict)) (e0 ev : list Z) : Prop := exists q, forall s, In s e0 -> tmass cpd s ev = q.

Lemma total_zero a e0 : (forall s, In s e0 -> 0 <= a s) -> total a e0 = 0 -> forall s, In s e0 -> a s = 0.
Proof.
  intros Ha Hz s Hs. assert (F := Rsum_nonneg_zero (map a e0)). rewrite !Forall_map, !Forall_forall in F. now apply F.
Qed.

Lemma one_table pmsg a e0 cpd ev : holds pmsg a e0 -> (forall s, In s e0 -> 0 <= a s) -> rows_ok cpd e0 -> NoDup ev ->
  exists msg fp, cpt_forward pmsg cpd e0 ev = Some (msg, Fin fp) /\ fp * total a e0 = total (next a e0 cpd) ev /\
    (steady cpd e0 ev -> holds msg (next a e0 cpd) ev).
Proof.
  intros [(Z & ->)|(Pos & m & -> & Hm & Hk & G)] Ha Hr Hev.
  - exists None, 0. split; [reflexivity|]. assert (T : total (next a e0 cpd) ev = 0).
    { rewrite total_next. apply Rsum_zero. intros s Hs. rewrite (total_zero a e0 Ha Z s Hs). ring. }
    split; [rewrite T; ring|]. intros _. left. auto.
  - destruct (cpt_forward_spec m cpd e0 ev Hm Hev Hr) as (msg & E & Hmsg). exists msg. eexists. split; [exact E|].
    assert (Gs : forall s, In s e0 -> dget m s = a s / total a e0) by (intros s Hs; rewrite G, ev_ind_in by auto; unfold Rdiv; ring).
    split.
    + rewrite total_next. rewrite (Rsum_ext _ (fun s => a s * tmass cpd s ev / total a e0)) by (intros s Hs; rewrite Gs by auto; unfold Rdiv; ring).
      rewrite NormalizeFacts.Rsum_div. field. lra.
    + intros (q & Hq). cbn zeta in Hmsg. set (A := total a e0) in *.
      assert (Sh : forall k, raw m cpd e0 ev k = ev_ind ev k * next a e0 cpd k / A / q).
      { intros k. unfold raw, next. rewrite (Rsum_ext _ (fun s => ev_ind ev k / A / q * (a s * tab cpd s k))).
        - rewrite Rsum_scal. unfold Rdiv. ring.
        - intros s Hs. unfold share. rewrite Gs, Hq by auto. unfold Rdiv. ring. }
      assert (RS : Rsum (map (raw m cpd e0 ev) ev) = total (next a e0 cpd) ev / A / q).
      { unfold total. rewrite <- !NormalizeFacts.Rsum_div. apply Rsum_ext. intros k Hin. rewrite Sh, ev_ind_in by auto. unfold Rdiv. ring. }
      assert (TN : total (next a e0 cpd) ev = A * q).
      { rewrite total_next. rewrite (Rsum_ext _ (fun s => q * a s)) by (intros s Hs; rewrite Hq by auto; ring). rewrite Rsum_scal. unfold A, total. ring. }
      destruct (Req_dec q 0) as [->|Nq].
      * left. rewrite TN. split; [ring|]. destruct Hmsg as [(_ & ->)|(P & _)]; [reflexivity|]. rewrite RS, TN in P. exfalso. unfold Rdiv in P. rewrite Rmult_0_r, !Rmult_0_l in P. lra.
      * assert (RS' : Rsum (map (raw m cpd e0 ev) ev) = 1) by (rewrite RS, TN; field; split; lra).
        destruct Hmsg as [(Z & _)|(P & m' & -> & Hm' & _ & Hi & G')]; [lra|].
        assert (0 <= q). { destruct e0 as [|s e0]; [unfold A, total in Pos; cbn in Pos; lra|]. rewrite <- (Hq s) by now left. destruct (Hr s) as (row & Er & Ho); [now left|]. rewrite (tmass_row cpd s row) by auto. now apply pmass_nonneg. }
        right. rewrite TN. split; [apply Rmult_lt_0_compat; lra|]. exists m'. repeat split; auto; try apply Hm'. intros k. rewrite G', RS', Sh. field. split; lra.
Qed.

(** ** All nodes *)
Lemma children_results e v msg cs : forall fs,
  fold_right (fun c acc => match forward_below e v msg c, acc with Some f, Some l => Some (f :: l) | _, _ => None end) (Some []) cs = Some fs ->
  Forall2 (fun c f => forward_below e v msg c = Some f) cs fs.
Proof.
  induction cs as [|c cs IH]; cbn [fold_right]; intros fs E.
  - injection E as <-. constructor.
  - destruct (forward_below e v msg c) as [f|] eqn:Ef; [|discriminate]. destruct (fold_right _ _ cs) as [l|]; [|discriminate]. injection E as <-.
    constructor; auto.
Qed.

Lemma children_exist e v msg cs : (forall c, In c cs -> exists f, forward_below e v msg c = Some f) ->
  exists fs, fold_right (fun c acc => match forward_below e v msg c, acc with Some f, Some l => Some (f :: l) | _, _ => None end) (Some []) cs = Some fs.
Proof.
  induction cs as [|c cs IH]; intros H; [eexists; reflexivity|]. cbn [fold_right]. destruct (H c) as (f & ->); [now left|].
  destruct IH as (fs & ->); [intros; apply H; now right|]. eauto.
Qed.

(** Every state of the parent that the event allows has a row. *)
Fixpoint tables_ok (e : nat -> list Z) (pv : nat) (t : cpt) : Prop :=
  match t with CPT v dom cpd cs => rows_ok cpd (e pv) /\ NoDup (e v) /\ fold_right and True (map (tables_ok e v) cs) end.

Lemma cpt_ind' (P : cpt -> Prop) : (forall v dom cpd cs, Forall P cs -> P (CPT v dom cpd cs)) -> forall t, P t.
Proof.
  intros H. fix IH 1. intros [v dom cpd cs]. apply H. induction cs as [|c cs IHc]; constructor; auto.
Qed.

Definition message_ok (msg : option dict) : Prop := forall m, msg = Some m -> dict_ok m.

Lemma forward_total e t : forall pv pmsg, message_ok pmsg -> tables_ok e pv t -> exists f, forward_below e pv pmsg t = Some f.
Proof.
  induction t as [v dom cpd cs IH] using cpt_ind'. intros pv pmsg Hm (Hr & Hn & Hc). cbn [forward_below].
  assert (X : exists msg fp, cpt_forward pmsg cpd (e pv) (e v) = Some (msg, fp) /\ message_ok msg).
  { destruct pmsg as [m|]; [|eexists _, _; split; [reflexivity|]; intros m E; discriminate].
    destruct (cpt_forward_spec m cpd (e pv) (e v) (Hm m eq_refl) Hn Hr) as (msg & E & [(_ & ->)|(_ & m' & -> & Hm' & _)]); eexists _, _; (split; [exact E|]); intros y Ey; [discriminate|congruence]. }
  destruct X as (msg & fp & -> & Hmsg). apply fold_and_Forall in Hc. rewrite Forall_forall in IH, Hc.
  destruct (children_exist e v msg cs) as (fs & ->); [|eauto]. intros c Hin. apply IH; auto.
Qed.

Fixpoint steady_path (e : nat -> list Z) (e0 : list Z) (l : list step) : Prop :=
  match l with [] => True | (v, cpd) :: l' => steady cpd e0 (e v) /\ steady_path e (e v) l' end.

Lemma removelast_cons {A} (x y : A) l : removelast (x :: y :: l) = x :: removelast (y :: l).
Proof. reflexivity. Qed.

Lemma path_nonempty fs l msg fp : path_to fs l msg fp -> l <> [].
Proof. destruct 1; discriminate. Qed.

Lemma holds_right e a e0 msg : holds msg a e0 -> NoDup e0 -> message_right e a e0 [] msg.
Proof.
  intros H Hn. unfold message_right. cbn zeta. rewrite evidence_nil. rewrite (Rsum_ext _ a) by (intros; ring). fold (total a e0).
  destruct H as [(Z & ->)|(Pos & m & -> & Hm & _ & G)].
  - split; [auto|tauto].
  - split; [lra|]. intros _. exists m. split; [reflexivity|]. split; [exact Hm|]. intros k. rewrite G, evidence_nil. f_equal. unfold is_state.
    destruct (in_dec Z.eq_dec k e0) as [Hin|Hout].
    + rewrite ev_ind_in by auto. rewrite (Rsum_one (fun s => a s * ind (Z.eqb s k)) e0 k Hn Hin); [rewrite Z.eqb_refl; unfold ind; ring|].
      intros s _ Ns. destruct (Z.eqb_spec s k); [contradiction|]. unfold ind. ring.
    + rewrite ev_ind_out by auto. rewrite Rsum_zero; [ring|]. intros s Hs. destruct (Z.eqb_spec s k) as [->|]; [contradiction|]. unfold ind. ring.
Qed.

Lemma message_right_cons e a e0 v cpd l msg : message_right e (next a e0 cpd) (e v) l msg -> message_right e a e0 ((v, cpd) :: l) msg.
Proof.
  unfold message_right. cbn zeta. rewrite evidence_cons. intros [H1 H2]. split; [exact H1|]. intros NZ. destruct (H2 NZ) as (m & E & Hm & G).
  exists m. split; [exact E|]. split; [exact Hm|]. intros k. now rewrite evidence_cons.
Qed.

Lemma path_spec e fs l msg fp : path_to fs l msg fp -> forall pv pmsg a cs,
  Forall2 (fun c f => forward_below e pv pmsg c = Some f) cs fs -> holds pmsg a (e pv) -> (forall s, In s (e pv) -> 0 <= a s) -> Forall (tables_ok e pv) cs ->
  (steady_path e (e pv) (removelast l) -> exists q, fp = Fin q /\ q * evidence e a (e pv) (removelast l) (fun _ => 1) = evidence e a (e pv) l (fun _ => 1)) /\
  (steady_path e (e pv) l -> message_right e a (e pv) l msg).
Proof.
  induction 1 as [fs v dom cpd msg fp cs' Hin|fs v dom cpd msg0 fp0 cs' l msg fp Hin Hp IH]; intros pv pmsg a cs F Hh Ha Hw;
    destruct (Forall2_in_r _ _ _ _ F Hin) as ([v' dom' cpd' cs0] & Hc & Ef); rewrite Forall_forall in Hw; destruct (Hw _ Hc) as (Hr & Hn & Hw');
    cbn [forward_below] in Ef; destruct (one_table pmsg a (e pv) cpd' (e v') Hh Ha Hr Hn) as (msg1 & fp1 & E1 & P1 & H1); rewrite E1 in Ef;
    destruct (fold_right _ _ cs0) as [fs0|] eqn:Efs; [|discriminate| |discriminate]; injection Ef as -> -> -> <- <- ->.
  - split.
    + intros _. exists fp1. split; [reflexivity|]. cbn [removelast]. rewrite evidence_cons, !evidence_nil.
      rewrite !(Rsum_ext (fun s => _ * 1) _ _ (fun s _ => Rmult_1_r _)). exact P1.
    + intros [Hs _]. apply message_right_cons. now apply holds_right; auto.
  - apply children_results in Efs. assert (N := path_nonempty _ _ _ _ Hp).
    assert (Hnn : forall s, In s (e v) -> 0 <= next a (e pv) cpd s) by (intros; now apply next_nonneg).
    apply fold_and_Forall in Hw'. split.
    + destruct l as [|x l]; [contradiction|]. rewrite removelast_cons. intros [Hs Hl].
      destruct (IH v msg1 (next a (e pv) cpd) cs0 Efs (H1 Hs) Hnn Hw') as [IH1 _]. destruct (IH1 Hl) as (q & Eq & Pq). exists q. split; [exact Eq|].
      now rewrite !evidence_cons.
    + intros [Hs Hl]. apply message_right_cons. now apply (IH v msg1 (next a (e pv) cpd) cs0 Efs (H1 Hs) Hnn Hw').
Qed.

(** ** The network *)
Lemma row_of_In cpd s row : NoDup (map fst cpd) -> In (s, row) cpd -> row_of cpd s = Some row.
Proof.
  unfold row_of. induction cpd as [|[k r] cpd IH]; [intros _ []|]. cbn [map fst]. intros N [E|Hin].
  - injection E as -> ->. cbn [find fst]. now rewrite Z.eqb_refl.
  - inversion N; subst. cbn [find fst]. destruct (Z.eqb_spec k s) as [->|]; [|auto]. exfalso. apply H1. apply (in_map fst _ _ Hin).
Qed.

Lemma cpt_row pdom v dom cpd cs s : cpt_ok pdom (CPT v dom cpd cs) -> In s pdom -> exists row, row_of cpd s = Some row /\ distribution_over dom row.
Proof.
  intros (_ & _ & N & K & F & _) Hs. apply K in Hs. apply in_map_iff in Hs. destruct Hs as ((s' & row) & E & Hin). cbn in E. subst s'.
  exists row. split; [now apply row_of_In|]. rewrite Forall_forall in F. exact (F _ Hin).
Qed.

Lemma cpt_ok_tables e t : forall pv pdom, cpt_ok pdom t -> cpt_event e t -> incl (e pv) pdom -> tables_ok e pv t.
Proof.
  induction t as [v dom cpd cs IH] using cpt_ind'. intros pv pdom Hok (N & I & Hc) Hi. split; [|split; [exact N|]].
  - intros s Hs. destruct (cpt_row pdom v dom cpd cs s Hok (Hi s Hs)) as (row & E & H & _). eauto.
  - destruct Hok as (_ & _ & _ & _ & _ & Hk). apply fold_and_Forall in Hk, Hc. apply fold_and_Forall. rewrite Forall_forall in *. intros c Hin. eapply IH; eauto.
Qed.

Lemma root_holds p ev : dict_ok p -> NoDup ev -> exists msg fp, root_forward p ev = (msg, Fin fp) /\ fp = total (dget p) ev /\ holds msg (dget p) ev.
Proof.
  intros Hp Hn. unfold root_forward. destruct (conditional_spec p ev Hp Hn) as [(Z & ->)|(Pos & c & -> & Hc & _ & G & K)].
  - exists None, 0. split; [reflexivity|]. fold (total (dget p) ev) in Z. unfold pmass in Z. split; [auto|]. left. auto.
  - exists (Some c), (pmass p ev). rewrite nexp_nlog by (cbn; lra). split; [reflexivity|]. split; [reflexivity|]. right. split; [exact Pos|].
    exists c. repeat split; try apply Hc; auto. rewrite K. intros k Hk. apply filter_In in Hk. tauto.
Qed.

(** The message of a node is right when the evidence at every node below the root, up to this one, does not distinguish the
    states that the evidence allows for its parent; e.g. when there is no evidence there, or when the parent is observed.
    If this is so for the nodes before it, its forward probability is the probability of its evidence given the evidence
    before it.  At the root both are right. *)
Theorem C39_forward_partial b e : network_ok b -> network_event e b -> exists msg fp fs,
  forward_pass e b = Some (msg, fp, fs) /\
  message_right e (dget (n_probs b)) (e (n_var b)) [] msg /\ fp = Fin (evidence e (dget (n_probs b)) (e (n_var b)) [] (fun _ => 1)) /\
  forall l msg' fp', path_to fs l msg' fp' ->
    (steady_path e (e (n_var b)) l -> message_right e (dget (n_probs b)) (e (n_var b)) l msg') /\
    (steady_path e (e (n_var b)) (removelast l) -> exists q, fp' = Fin q /\
       q * evidence e (dget (n_probs b)) (e (n_var b)) (removelast l) (fun _ => 1) = evidence e (dget (n_probs b)) (e (n_var b)) l (fun _ => 1)).
Proof.
  intros (_ & _ & (Hp & _) & Hc & _) (Hn & Hi & He).
  destruct (root_holds (n_probs b) (e (n_var b)) Hp Hn) as (msg & fp & E & Efp & Hh).
  assert (Hw : Forall (tables_ok e (n_var b)) (n_children b)).
  { rewrite Forall_forall in *. intros c Hin. eapply cpt_ok_tables; eauto. }
  assert (Mok : message_ok msg). { intros m ->. destruct Hh as [(_ & X)|(_ & m' & X & Hm & _)]; [discriminate|congruence]. }
  destruct (children_exist e (n_var b) msg (n_children b)) as (fs & Efs).
  { rewrite Forall_forall in Hw. intros c Hin. apply forward_total; auto. }
  exists msg, (Fin fp), fs. unfold forward_pass. rewrite E, Efs. split; [reflexivity|]. split; [now apply holds_right|]. split.
  - rewrite evidence_nil, Efp. f_equal. unfold total. apply Rsum_ext. intros; ring.
  - intros l msg' fp' Hpath. apply children_results in Efs.
    destruct (path_spec e fs l msg' fp' Hpath (n_var b) msg (dget (n_probs b)) (n_children b) Efs Hh) as [H1 H2]; auto.
    intros s _. now apply dget_nonneg.
Qed.
Print Assumptions C39_forward_partial.

(** ** Where it fails *)
Definition rain : network :=
  mkNet 0 [0; 1]%Z [(0%Z, 1/2); (1%Z, 1/2)] [CPT 1 [0; 1; 2]%Z [(0%Z, [(0%Z, 1/2); (1%Z, 1/2)]); (1%Z, [(1%Z, 1/4); (2%Z, 3/4)])] []].

Lemma two_states k1 k2 a b : k1 <> k2 -> 0 <= a -> 0 <= b -> dict_ok [(k1, a); (k2, b)].
Proof. intros N Ha Hb. split; [|cbn; constructor; [exact Ha|constructor; [exact Hb|constructor]]]. cbn. repeat constructor; cbn; intuition congruence. Qed.

Lemma rain_ok : network_ok rain.
Proof.
  assert (N2 : NoDup [0; 1]%Z) by (repeat constructor; cbn; intuition congruence).
  assert (N3 : NoDup [0; 1; 2]%Z) by (repeat constructor; cbn; intuition congruence).
  split; [exact N2|]. split; [discriminate|]. split.
  { split; [apply two_states; [discriminate|lra|lra]|]. split; [intros x; cbn; tauto|cbn; lra]. }
  split.
  - constructor; [|constructor]. split; [exact N3|]. split; [discriminate|]. split; [exact N2|]. split; [cbn; tauto|]. split; [|exact I].
    constructor; [|constructor; [|constructor]]; (split; [apply two_states; [discriminate|lra|lra]|]; split; [intros x [<-|[<-|[]]]; cbn; tauto|cbn; lra]).
  - cbn. repeat constructor; cbn; intuition congruence.
Qed.

Lemma rain_result e msg fp fs : forward_pass e rain = Some (msg, fp, fs) -> exists msg' fp',
  fs = [FNode 1 [0; 1; 2]%Z [(0%Z, [(0%Z, 1/2); (1%Z, 1/2)]); (1%Z, [(1%Z, 1/4); (2%Z, 3/4)])] msg' fp' []] /\
  root_forward (n_probs rain) (e 0%nat) = (msg, fp) /\
  cpt_forward msg [(0%Z, [(0%Z, 1/2); (1%Z, 1/2)]); (1%Z, [(1%Z, 1/4); (2%Z, 3/4)])] (e 0%nat) (e 1%nat) = Some (msg', fp').
Proof.
  unfold forward_pass. cbn [n_probs n_var n_children rain]. destruct (root_forward _ (e 0%nat)) as [m q]. cbn [fold_right forward_below].
  destruct (cpt_forward m _ _ _) as [[m' q']|] eqn:E; [|discriminate]. intros H. injection H as -> -> <-. exists m', q'. auto.
Qed.

(** The forward probability forgets the probability of the evidence above. *)
Definition dry : nat -> list Z := fun v => if (v =? 0)%nat then [0%Z] else [0; 1; 2]%Z.

Lemma dry_ok : network_event dry rain.
Proof.
  split; [repeat constructor; cbn; tauto|]. split; [intros x [<-|[]]; cbn; tauto|]. constructor; [|constructor].
  split; [repeat constructor; cbn; intuition congruence|]. split; [intros x H; exact H|exact I].
Qed.

Theorem C39_probabilities_refuted : ~ C39_probabilities.
Proof.
  intros H. destruct (H rain dry rain_ok dry_ok) as (msg & fp & fs & E & _ & Hl).
  destruct (C39_forward_partial rain dry rain_ok dry_ok) as (msg1 & fp1 & fs1 & E1 & _ & _ & Hl1). rewrite E in E1. injection E1 as <- <- <-.
  destruct (rain_result dry msg fp fs E) as (msg' & fp' & -> & _).
  assert (P : path_to [FNode 1 [0; 1; 2]%Z [(0%Z, [(0%Z, 1/2); (1%Z, 1/2)]); (1%Z, [(1%Z, 1/4); (2%Z, 3/4)])] msg' fp' []] _ msg' fp') by (eapply path_here; now left).
  destruct (Hl1 _ _ _ P) as [_ H2]. destruct H2 as (q & Eq & Pq); [exact I|]. rewrite (Hl _ _ _ P) in Eq. injection Eq as Eq.
  cbn [removelast] in Pq. rewrite evidence_cons, !evidence_nil in *. unfold next, dry in *. cbn in *. lra.
Qed.
Print Assumptions C39_probabilities_refuted.

(** The message forgets how likely the evidence at the node is for each state of the parent. *)
Definition wet : nat -> list Z := fun _ => [0; 1]%Z.

Lemma wet_ok : network_event wet rain.
Proof.
  assert (N2 : NoDup [0; 1]%Z) by (repeat constructor; cbn; intuition congruence).
  split; [exact N2|]. split; [intros x H; exact H|]. constructor; [|constructor]. split; [exact N2|]. split; [intros x [<-|[<-|[]]]; cbn; tauto|exact I].
Qed.

Theorem C39_messages_refuted : ~ C39_messages.
Proof.
  intros H. destruct (H rain wet rain_ok wet_ok) as (msg & fp & fs & E & _ & Hl).
  destruct (rain_result wet msg fp fs E) as (msg' & fp' & -> & Er & Ec).
  assert (P : path_to [FNode 1 [0; 1; 2]%Z [(0%Z, [(0%Z, 1/2); (1%Z, 1/2)]); (1%Z, [(1%Z, 1/4); (2%Z, 3/4)])] msg' fp' []] _ msg' fp') by (eapply path_here; now left).
  destruct (Hl _ _ _ P) as [_ Hm]. rewrite evidence_cons, !evidence_nil in Hm.
  destruct Hm as (m' & -> & _ & G); [unfold next, wet; cbn; lra|]. specialize (G 0%Z). rewrite evidence_cons, !evidence_nil in G. unfold next, wet, is_state in G. cbn in G.
  assert (Hok : dict_ok (n_probs rain)) by (apply two_states; [discriminate|lra|lra]).
  assert (N2 : NoDup (wet 0%nat)) by (repeat constructor; cbn; intuition congruence).
  destruct (root_holds (n_probs rain) (wet 0%nat) Hok N2) as (m0 & q0 & E0 & _ & Hh). rewrite E0 in Er. injection Er as <- <-.
  destruct Hh as [(Z & _)|(_ & m & -> & Hmok & _ & Gm)]; [unfold total in Z; cbn in Z; lra|].
  assert (G0 := Gm 0%Z). assert (G1 := Gm 1%Z). unfold total, ev_ind in G0, G1. cbn in G0, G1. 
  destruct (cpt_forward_spec m [(0%Z, [(0%Z, 1/2); (1%Z, 1/2)]); (1%Z, [(1%Z, 1/4); (2%Z, 3/4)])] (wet 0%nat) (wet 1%nat)) as (msg & E2 & Hs); auto.
  { intros s [<-|[<-|[]]]; eexists; (split; [reflexivity|]); apply two_states; try discriminate; lra. }
  rewrite E2 in Ec. injection Ec as -> _. cbn zeta in Hs. destruct Hs as [(_ & X)|(_ & m1 & X & _ & _ & _ & G2)]; [discriminate|]. injection X as <-.
  specialize (G2 0%Z). unfold raw, share, tmass, tab, ev_ind, wet in G2. cbn in G2. rewrite G0, G1 in G2. unfold dget in G, G2. cbn in G, G2. rewrite G in G2. field_simplify in G2; lra.
Qed.
Print Assumptions C39_messages_refuted.

(** ** Case: evidence at the root only.  The second node gets the message (1/2, 1/2, 0). *)
Example C39_case : exists msg fp fs msg' fp' m, forward_pass dry rain = Some (msg, fp, fs) /\
  path_to fs [(1%nat, [(0%Z, [(0%Z, 1/2); (1%Z, 1/2)]); (1%Z, [(1%Z, 1/4); (2%Z, 3/4)])])] msg' fp' /\
  msg' = Some m /\ dget m 0 = 1/2 /\ dget m 1 = 1/2 /\ dget m 2 = 0.
Proof.
  destruct (C39_forward_partial rain dry rain_ok dry_ok) as (msg & fp & fs & E & _ & _ & Hl).
  destruct (rain_result dry msg fp fs E) as (msg' & fp' & -> & _).
  assert (P : path_to [FNode 1 [0; 1; 2]%Z [(0%Z, [(0%Z, 1/2); (1%Z, 1/2)]); (1%Z, [(1%Z, 1/4); (2%Z, 3/4)])] msg' fp' []] _ msg' fp') by (eapply path_here; now left).
  destruct (Hl _ _ _ P) as [H1 _]. destruct H1 as [_ H1].
  { split; [|exact I]. exists 1. intros s [<-|[]]. unfold tmass, tab, dry. cbn. unfold dget. cbn. lra. }
  rewrite evidence_cons, !evidence_nil in H1. destruct H1 as (m & -> & _ & G); [unfold next, dry; cbn; unfold tab, dget; cbn; lra|].
  eexists _, _, _, _, _, m. split; [exact E|]. split; [exact P|]. split; [reflexivity|].
  repeat split; rewrite G, evidence_cons, !evidence_nil; unfold next, dry, is_state; cbn; unfold tab, dget; cbn; field.
Qed.
