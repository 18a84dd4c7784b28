(** * MultinomialFacts: index tuples, axis sums, masks *)
From Coq Require Import List Arith Bool Lia ZArith Reals Lra Permutation.
From Verif Require Import Num Graph GraphFacts Spec SpecFacts Circuit EvalFacts Interval Dist DistFacts TreeLocal Support ModeFacts Layout LayoutFacts Multinomial.
Import ListNotations.
Local Open Scope R_scope.

Lemma mem_In v l : mem v l = true <-> In v l.
Proof.
  unfold mem. rewrite existsb_exists. split; [intros (x & H & E); apply Nat.eqb_eq in E; now subst|].
  intros H. exists v. rewrite Nat.eqb_refl. auto.
Qed.

Lemma leqb_eq l l' : leqb l l' = true <-> l = l'.
Proof. unfold leqb. destruct (list_eq_dec Nat.eq_dec l l'); split; congruence. Qed.

(** ** Products of lists *)
Lemma cart_In {A} (ls : list (list A)) s : In s (cart ls) <-> Forall2 (fun l a => In a l) ls s.
Proof.
  revert s. induction ls as [|l ls IH]; intros s; simpl.
  - split; [intros [<-|[]]; constructor|intros H; inversion H; auto].
  - rewrite in_flat_map. split.
    + intros (a & Ha & H). apply in_map_iff in H. destruct H as (s' & <- & H). constructor; auto. now apply IH.
    + intros H. inversion H as [|? a ? s' Ha H']; subst. exists a. split; auto. apply in_map. now apply IH.
Qed.

Lemma NoDup_flat_map {A B} (f : A -> list B) l : NoDup l -> (forall a, In a l -> NoDup (f a)) ->
  (forall a b x, In a l -> In b l -> In x (f a) -> In x (f b) -> a = b) -> NoDup (flat_map f l).
Proof.
  induction l as [|a l IH]; intros Hl Hf Hd; simpl; [constructor|]. inversion Hl as [|? ? Ha Hl']; subst.
  assert (NoDup (flat_map f l)) as H. { apply IH; auto; [intros; apply Hf; now right|]. intros b c x Hb Hc. apply Hd; now right. }
  assert (forall x, In x (f a) -> ~ In x (flat_map f l)) as H1.
  { intros x Hx Hn. apply in_flat_map in Hn. destruct Hn as (b & Hb & Hxb).
    assert (a = b) by (eapply Hd; eauto; simpl; auto). congruence. }
  specialize (Hf a (or_introl eq_refl)). clear -H H1 Hf. induction Hf; simpl; auto. constructor.
  - rewrite in_app_iff. intros [?|?]; auto. apply (H1 x); simpl; auto.
  - apply IHHf. intros y Hy. apply H1. simpl; auto.
Qed.

Lemma cart_NoDup {A} (ls : list (list A)) : Forall (@NoDup A) ls -> NoDup (cart ls).
Proof.
  induction 1 as [|l ls Hl Hls IH]; simpl; [repeat constructor; auto|]. apply NoDup_flat_map; auto.
  - intros a _. apply FinFun.Injective_map_NoDup; auto. intros x y E. congruence.
  - intros a b x _ _ H1 H2. apply in_map_iff in H1, H2. destruct H1 as (? & <- & _), H2 as (? & E & _). congruence.
Qed.

Lemma states_In sh s : In s (states sh) <-> Forall2 (fun n i => (i < n)%nat) sh s.
Proof.
  unfold states. rewrite cart_In. revert s. induction sh as [|n sh IH]; intros s; simpl.
  - split; intros H; inversion H; constructor.
  - split; intros H; inversion H; subst; constructor; try now apply IH.
    + rewrite in_seq in *. lia.
    + rewrite in_seq. lia.
Qed.

Lemma states_NoDup sh : NoDup (states sh).
Proof. apply cart_NoDup. apply Forall_map. apply Forall_forall. intros n _. apply seq_NoDup. Qed.

(** ** Sums over fibres *)
Lemma Rsum_filter {A} (p : A -> bool) (f : A -> R) l : Rsum (map f (filter p l)) = Rsum (map (fun a => if p a then f a else 0) l).
Proof. induction l as [|a l IH]; simpl; auto. destruct (p a); simpl; rewrite IH; lra. Qed.

Lemma Rsum_one {A} (f : A -> R) l a : NoDup l -> In a l -> (forall b, In b l -> b <> a -> f b = 0) -> Rsum (map f l) = f a.
Proof.
  induction l as [|b l IH]; intros Hl Ha Hz; [destruct Ha|]. inversion Hl as [|? ? Hb Hl']; subst. cbn [map Rsum fold_right].
  fold (Rsum (map f l)). destruct Ha as [->|Ha].
  - rewrite (Rsum_zero f l); [lra|]. intros x Hx. apply Hz; [now right|]. intros ->. auto.
  - rewrite IH; auto; [rewrite (Hz b); [lra|now left|intros ->; auto]|]. intros x Hx. apply Hz. now right.
Qed.

Lemma fibre_sum {A} (f : A -> R) (k : A -> list nat) l ks : NoDup ks -> (forall a, In a l -> In (k a) ks) ->
  Rsum (map (fun s => Rsum (map f (filter (fun a => leqb (k a) s) l))) ks) = Rsum (map f l).
Proof.
  intros Hk Hin.
  rewrite (Rsum_ext _ (fun s => Rsum (map (fun a => if leqb (k a) s then f a else 0) l)));
    [|intros; apply Rsum_filter].
  rewrite (Rsum_swap (fun s a => if leqb (k a) s then f a else 0)).
  apply Rsum_ext. intros a Ha.
  rewrite (Rsum_one (fun s => if leqb (k a) s then f a else 0) ks (k a)); auto.
  - now rewrite (proj2 (leqb_eq _ _) eq_refl).
  - intros s _ Hn. destruct (leqb (k a) s) eqn:E; auto. apply leqb_eq in E. congruence.
Qed.

Lemma Rsum_same_members {A} (f : A -> R) l l' : NoDup l -> NoDup l' -> (forall a, In a l <-> In a l') ->
  Rsum (map f l) = Rsum (map f l').
Proof. intros. apply Rsum_perm. apply Permutation_map. now apply NoDup_Permutation. Qed.

(** ** Kept axes *)
Lemma kept_shape vs vars dom s : Forall2 (fun n i => (i < n)%nat) (shape dom vars) s ->
  Forall2 (fun n i => (i < n)%nat) (shape dom (filter (fun v => mem v vs) vars)) (kept vs vars s).
Proof.
  unfold kept. revert s. induction vars as [|v vars IH]; intros s H; simpl in *.
  - constructor.
  - inversion H as [|? i ? s' Hi Hs]; subst. simpl. destruct (mem v vs); simpl; auto.
Qed.

(** The value of a variable in an index tuple. *)
Fixpoint value (vars : list nat) (s : list nat) (v : nat) : option nat :=
  match vars, s with
  | w :: vars', i :: s' => if (w =? v)%nat then Some i else value vars' s' v
  | _, _ => None
  end.

Lemma value_absent vars s v : ~ In v vars -> value vars s v = None.
Proof.
  revert s. induction vars as [|w vars IH]; intros [|i s] H; simpl in *; auto.
  destruct (Nat.eqb_spec w v); [tauto|]. apply IH. tauto.
Qed.

Lemma kept_value vs vars s v : In v vs -> value (filter (fun v => mem v vs) vars) (kept vs vars s) v = value vars s v.
Proof.
  intros Hv. unfold kept. revert s. induction vars as [|w vars IH]; intros s; simpl; auto. destruct s as [|i s]; simpl.
  - destruct (mem w vs); [reflexivity|]. specialize (IH []). destruct vars; exact IH.
  - destruct (mem w vs) eqn:E; simpl; [destruct (w =? v)%nat; auto|]. destruct (Nat.eqb_spec w v); auto. subst.
    apply mem_In in Hv. congruence.
Qed.

Lemma value_inj vars s s' : NoDup vars -> length s = length vars -> length s' = length vars ->
  (forall v, In v vars -> value vars s v = value vars s' v) -> s = s'.
Proof.
  intros Hd. revert s s'. induction Hd as [|w vars Hw Hd IH]; intros [|i s] [|j s'] H1 H2 H; simpl in *; try discriminate; auto.
  f_equal.
  - specialize (H w (or_introl eq_refl)). rewrite Nat.eqb_refl in H. congruence.
  - apply IH; try lia. intros v Hv. specialize (H v (or_intror Hv)). destruct (Nat.eqb_spec w v); [subst; tauto|auto].
Qed.

Lemma valid_length dom vars s : Forall2 (fun n i => (i < n)%nat) (shape dom vars) s -> length s = length vars.
Proof.
  unfold shape. revert s. induction vars as [|v vars IH]; intros s H; inversion H; subst; simpl; auto.
Qed.

Lemma kept_agree dom vs vars full s : NoDup vars ->
  Forall2 (fun n i => (i < n)%nat) (shape dom vars) full ->
  Forall2 (fun n i => (i < n)%nat) (shape dom (filter (fun v => mem v vs) vars)) s ->
  (kept vs vars full = s <-> forall v, In v (filter (fun v => mem v vs) vars) -> value vars full v = value (filter (fun v => mem v vs) vars) s v).
Proof.
  intros Hd Hf Hs. split.
  - intros <- v Hv. apply filter_In in Hv. destruct Hv as [_ Hv]. apply mem_In in Hv. now rewrite kept_value.
  - intros H. apply (value_inj (filter (fun v => mem v vs) vars)).
    + now apply NoDup_filter.
    + eapply valid_length. eapply kept_shape. eauto.
    + eapply valid_length. eauto.
    + intros v Hv. rewrite <- H by auto. apply kept_value. apply filter_In in Hv. destruct Hv as [_ Hv]. now apply mem_In.
Qed.

(** ** Marginal *)
Section Table.
Variables (dom : nat -> list Z) (m : multi) (f : list nat -> R).
Hypothesis Hf : forall s, In s (states (shape dom (m_vars m))) -> m_at m s = Fin (f s).

Lemma total_R : m_total dom m = Fin (Rsum (map f (states (shape dom (m_vars m))))).
Proof. unfold m_total. apply nsum_map_Fin. auto. Qed.

Lemma marginal_R vs : shape dom vs = shape dom (filter (fun v => mem v vs) (m_vars m)) ->
  let T := Rsum (map f (states (shape dom (m_vars m)))) in T <> 0 ->
  exists m', m_marginal dom vs m = Some m' /\ m_vars m' = vs /\
    forall s, In s (states (shape dom vs)) ->
      m_at m' s = Fin (Rsum (map f (filter (fun full => leqb (kept vs (m_vars m) full) s) (states (shape dom (m_vars m))))) / T).
Proof.
  intros Hs T HT. unfold m_marginal. rewrite (proj2 (leqb_eq _ _) Hs). eexists. split; [reflexivity|]. split; [reflexivity|].
  intros s H. unfold m_normalize, m_total. cbn [m_at m_vars].
  rewrite (nsum_map_Fin _ f); [|intros x Hx; apply filter_In in Hx; destruct Hx; auto].
  rewrite (nsum_map_Fin _ (fun s => Rsum (map f (filter (fun full => leqb (kept vs (m_vars m) full) s) (states (shape dom (m_vars m))))))).
  - rewrite fibre_sum; [|apply states_NoDup|].
    + fold T. cbn [ndiv]. destruct (Req_EM_T T 0); [tauto|reflexivity].
    + intros a Ha. apply states_In. rewrite Hs. apply kept_shape. now apply states_In.
  - intros s' _. apply nsum_map_Fin. intros x Hx. apply filter_In in Hx. destruct Hx; auto.
Qed.
End Table.

(** ** Vocabulary of the statements *)

(** An index tuple of the right shape. *)
Definition valid (dom : nat -> list Z) (vars s : list nat) : Prop := Forall2 (fun v i => (i < length (dom v))%nat) vars s.

Lemma valid_states dom vars s : In s (states (shape dom vars)) <-> valid dom vars s.
Proof.
  rewrite states_In. unfold shape, valid. revert s. induction vars as [|v vars IH]; intros s; simpl.
  - split; intros H; inversion H; constructor.
  - split; intros H; inversion H; subst; constructor; auto; now apply IH.
Qed.

(** The state named by an index tuple lies in a simple event: the element at each index is one of the listed elements. *)
Definition in_set (A : evset) (k : Z) : Prop := match A with ESym l => In k l | EInt _ => False end.
Definition sat (dom : nat -> list Z) (e : sevent) (vars s : list nat) : Prop :=
  Forall2 (fun v i => exists k, nth_error (dom v) i = Some k /\ in_set (e v) k) vars s.

(** The sum of [f] over all index tuples with a property. *)
Definition sum_over (P : list nat -> Prop) (f : list nat -> R) (r : R) : Prop :=
  exists L, NoDup L /\ (forall s, In s L <-> P s) /\ r = Rsum (map f L).

Lemma sum_over_det P f r r' : sum_over P f r -> sum_over P f r' -> r = r'.
Proof.
  intros (L & H1 & H2 & ->) (L' & H1' & H2' & ->). apply Rsum_same_members; auto. intros s. now rewrite H2, H2'.
Qed.

Lemma sum_over_states dom vars f : sum_over (valid dom vars) f (Rsum (map f (states (shape dom vars)))).
Proof. exists (states (shape dom vars)). split; [apply states_NoDup|]. split; auto. intros s. apply valid_states. Qed.

(** ** Elements and indices *)
Lemma index_of_nth k l n : index_of k l = Some n -> nth_error l n = Some k.
Proof.
  revert n. induction l as [|x l IH]; intros n; simpl; [discriminate|]. destruct (Z.eqb_spec x k).
  - intros E. inversion E. subst. reflexivity.
  - destruct (index_of k l) as [j|]; [|discriminate]. intros E. inversion E. simpl. auto.
Qed.

Lemma index_of_In k l : In k l -> exists n, index_of k l = Some n.
Proof.
  induction l as [|x l IH]; intros H; simpl; [destruct H|]. destruct (Z.eqb_spec x k); [eauto|].
  destruct H as [->|H]; [tauto|]. destruct (IH H) as [j ->]. eauto.
Qed.

Lemma nth_index_of k l n : NoDup l -> nth_error l n = Some k -> index_of k l = Some n.
Proof.
  intros Hl. revert n. induction Hl as [|x l Hx Hl IH]; intros n; simpl; [destruct n; discriminate|].
  destruct n as [|n]; simpl.
  - intros E. inversion E. now rewrite Z.eqb_refl.
  - intros E. destruct (Z.eqb_spec x k); [subst; exfalso; apply Hx; eapply nth_error_In; eauto|]. now rewrite (IH n).
Qed.

(** What a simple event over a table looks like: every variable has a set of elements of its domain. *)
Definition set_over (dom : nat -> list Z) (e : sevent) (v : nat) : Prop :=
  exists l, e v = ESym l /\ NoDup l /\ incl l (dom v).

Lemma mapM_index dom l : NoDup dom -> NoDup l -> incl l dom ->
  exists is, mapM (fun k => index_of k dom) l = Some is /\ NoDup is /\
    forall i, In i is <-> exists k, nth_error dom i = Some k /\ In k l.
Proof.
  intros Hd. unfold mapM. induction 1 as [|k l Hk Hl IH]; intros Hin.
  - exists []. split; [reflexivity|]. split; [constructor|]. intros i. split; [intros []|intros (k & _ & [])].
  - destruct IH as (is & E & Hn & Hi); [intros x Hx; apply Hin; now right|].
    destruct (index_of_In k dom) as [j Ej]; [apply Hin; now left|]. exists (j :: is). simpl. rewrite Ej, E. split; auto.
    assert (Ek := index_of_nth _ _ _ Ej). split.
    + constructor; auto. intros H. apply Hi in H. destruct H as (k' & E1 & E2). congruence.
    + intros i. simpl. rewrite Hi. split.
      * intros [<-|(k' & E1 & E2)]; eauto.
      * intros (k' & E1 & [<-|E2]); eauto. left. apply nth_index_of in E1; auto. congruence.
Qed.

Lemma indices_spec dom e vars : Forall (fun v => NoDup (dom v)) vars -> Forall (set_over dom e) vars ->
  exists idx, m_indices dom e vars = Some idx /\ Forall (@NoDup nat) idx /\
    forall s, Forall2 (fun l a => In a l) idx s <-> sat dom e vars s.
Proof.
  unfold m_indices, mapM at 1. induction 1 as [|v vars Hd Hds IH]; intros H.
  - exists []. split; auto. split; auto. intros s. split; intros H'; inversion H'; constructor.
  - inversion H as [|? ? (l & El & Hl & Hin) Hvs]; subst. destruct (IH Hvs) as (idx & E & Hn & Hi).
    destruct (mapM_index (dom v) l Hd Hl Hin) as (is & E' & Hn' & Hi'). exists (is :: idx). simpl. rewrite El, E', E.
    split; auto. split; auto. intros s. split; intros H'; inversion H' as [|? i ? s' H1 H2]; subst; constructor.
    + apply Hi' in H1. rewrite El. auto.
    + now apply Hi.
    + apply Hi'. now rewrite El in H1.
    + now apply Hi.
Qed.

Lemma in_ix_spec idx s : in_ix idx s = true <-> Forall2 (fun l a => In a l) idx s.
Proof.
  unfold in_ix. rewrite andb_true_iff, Nat.eqb_eq, forallb_forall. split.
  - revert s. induction idx as [|l idx IH]; intros [|i s] [H1 H2]; simpl in *; try discriminate; constructor.
    + apply mem_In. apply (H2 (l, i)). now left.
    + apply IH. split; auto.
  - induction 1 as [|l i idx s Hi H [IH1 IH2]]; simpl; [split; [reflexivity|intros ? []]|]. split; [lia|].
    intros x [<-|Hx]; auto. now apply mem_In.
Qed.

Lemma sat_valid dom e vars s : sat dom e vars s -> valid dom vars s.
Proof.
  unfold sat, valid. induction 1 as [|v i vars s (k & E & _) H IH]; constructor; auto. apply nth_error_Some. congruence.
Qed.

(** ** Conditional *)
Definition apart (dom : nat -> list Z) (vars : list nat) (es : list sevent) : Prop :=
  ForallOrdPairs (fun e e' => forall s, ~ (sat dom e vars s /\ sat dom e' vars s)) es.

Lemma indices_all dom vars es : Forall (fun v => NoDup (dom v)) vars -> Forall (fun e => Forall (set_over dom e) vars) es ->
  exists idxs, mapM (fun e => m_indices dom e vars) es = Some idxs /\
    Forall2 (fun e idx => m_indices dom e vars = Some idx /\ NoDup (cart idx) /\ forall s, in_ix idx s = true <-> sat dom e vars s) es idxs.
Proof.
  intros Hd. unfold mapM. induction 1 as [|e es He Hes IH]; [exists []; auto|].
  destruct IH as (idxs & E & H). destruct (indices_spec dom e vars Hd He) as (idx & E' & Hn & Hi).
  exists (idx :: idxs). rewrite E', E. split; auto. constructor; auto. split; auto. split; [now apply cart_NoDup|].
  intros s. rewrite in_ix_spec. apply Hi.
Qed.

Section Cond.
Variables (dom : nat -> list Z) (m : multi) (f : list nat -> R).
Hypothesis Hf : forall s, In s (states (shape dom (m_vars m))) -> m_at m s = Fin (f s).
Notation all := (states (shape dom (m_vars m))).
Notation hit idxs s := (existsb (fun idx => in_ix idx s) idxs).

Lemma masked_sum es idxs s : apart dom (m_vars m) es ->
  Forall2 (fun e idx => m_indices dom e (m_vars m) = Some idx /\ NoDup (cart idx) /\ forall s, in_ix idx s = true <-> sat dom e (m_vars m) s) es idxs ->
  Rsum (map (fun idx => if in_ix idx s then f s else 0) idxs) = if hit idxs s then f s else 0.
Proof.
  intros Ha H. revert Ha. induction H as [|e idx es idxs (_ & _ & Hi) H IH]; intros Ha; simpl; auto.
  inversion Ha as [|? ? Hn Ha']; subst. rewrite IH by auto. destruct (in_ix idx s) eqn:E; simpl; [|lra].
  assert (hit idxs s = false) as ->; [|lra].
  apply not_true_is_false. intros Hh. apply existsb_exists in Hh. destruct Hh as (j & Hj & Ej).
  apply Hi in E. clear -Hn H Hj Ej E. induction H as [|e' j' es idxs (_ & _ & Hi') H IH]; [destruct Hj|].
  inversion Hn; subst. destruct Hj as [->|Hj]; auto. apply Hi' in Ej. eapply H2; eauto.
Qed.

Lemma hit_spec es idxs s :
  Forall2 (fun e idx => m_indices dom e (m_vars m) = Some idx /\ NoDup (cart idx) /\ forall s, in_ix idx s = true <-> sat dom e (m_vars m) s) es idxs ->
  hit idxs s = true <-> exists e, In e es /\ sat dom e (m_vars m) s.
Proof.
  intros H. rewrite existsb_exists. induction H as [|e idx es idxs (_ & _ & Hi) H IH].
  - split; intros (? & [] & _).
  - split.
    + intros (j & [<-|Hj] & E); [exists e; split; [now left|now apply Hi]|].
      destruct (proj1 IH) as (e' & H1 & H2); eauto. exists e'. split; [now right|auto].
    + intros (e' & [<-|He] & E); [exists idx; split; [now left|now apply Hi]|].
      destruct (proj2 IH) as (j & H1 & H2); eauto. exists j. split; [now right|auto].
Qed.

Lemma conditional_R es : Forall (fun v => NoDup (dom v)) (m_vars m) -> Forall (fun e => Forall (set_over dom e) (m_vars m)) es ->
  apart dom (m_vars m) es ->
  exists idxs, (forall s, hit idxs s = true <-> exists e, In e es /\ sat dom e (m_vars m) s) /\
    let P := Rsum (map f (filter (fun s => hit idxs s) all)) in
    m_probability dom es m = Some (Fin P) /\
    m_log_conditional dom es m =
      (let m' := mkMulti (m_vars m) (fun s => nsum (map (fun idx => m_masked m idx s) idxs)) in
       if Req_EM_T P 0 then Some (None, NInf) else Some (Some (m_normalize dom m'), nlog (Fin P))) /\
    forall s, valid dom (m_vars m) s -> P <> 0 ->
      m_at (m_normalize dom (mkMulti (m_vars m) (fun s => nsum (map (fun idx => m_masked m idx s) idxs)))) s
        = Fin ((if hit idxs s then f s else 0) / P).
Proof.
  intros Hd He Ha. destruct (indices_all dom (m_vars m) es Hd He) as (idxs & E & H). exists idxs.
  split; [intros s; now apply hit_spec|]. intros P.
  assert (Hat : forall s, In s all -> nsum (map (fun idx => m_masked m idx s) idxs) = Fin (if hit idxs s then f s else 0)).
  { intros s Hs. rewrite (nsum_map_Fin _ (fun idx => if in_ix idx s then f s else 0)).
    - f_equal. eapply masked_sum; eauto.
    - intros idx _. unfold m_masked. rewrite (Hf s Hs). now destruct (in_ix idx s). }
  assert (HP : m_total dom (mkMulti (m_vars m) (fun s => nsum (map (fun idx => m_masked m idx s) idxs))) = Fin P).
  { unfold m_total. cbn [m_vars m_at]. rewrite (nsum_map_Fin _ (fun s => if hit idxs s then f s else 0)) by auto.
    unfold P. now rewrite Rsum_filter. }
  split; [|split].
  - unfold m_probability.
    assert (E' : mapM (fun e => m_probability_simple dom e m) es =
                 Some (map (fun idx => Fin (Rsum (map (fun s => if in_ix idx s then f s else 0) all))) idxs)).
    { clear -H Hf. unfold mapM. induction H as [|e idx es idxs (E & Hn & Hi) H IH]; auto. cbn [map].
      unfold m_probability_simple at 1. rewrite E, IH. do 2 f_equal. rewrite <- Rsum_filter.
      assert (Hin : forall s, In s (cart idx) <-> In s (filter (in_ix idx) all)).
      { intros s. rewrite filter_In, cart_In, <- in_ix_spec. split; [|tauto]. intros Hs. split; auto.
        apply valid_states. eapply sat_valid. now apply Hi. }
      rewrite (nsum_map_Fin _ f). 2:{ intros s Hs. apply Hf. apply Hin in Hs. apply filter_In in Hs. tauto. }
      f_equal. apply Rsum_same_members; auto. apply NoDup_filter, states_NoDup. }
    rewrite E'. f_equal. rewrite (nsum_map_Fin _ (fun idx => Rsum (map (fun s => if in_ix idx s then f s else 0) all))) by auto.
    f_equal. rewrite (Rsum_swap (fun idx s => if in_ix idx s then f s else 0)). unfold P. rewrite Rsum_filter.
    apply Rsum_ext. intros s _. eapply masked_sum; eauto.
  - unfold m_log_conditional. rewrite E. rewrite HP. cbn [feq]. destruct (Reqb_spec P 0), (Req_EM_T P 0); tauto.
  - intros s Hs HP0. unfold m_normalize. cbn [m_at m_vars]. fold (m_total dom (mkMulti (m_vars m) (fun s => nsum (map (fun idx => m_masked m idx s) idxs)))).
    rewrite HP, Hat by now apply valid_states. cbn [ndiv]. destruct (Req_EM_T P 0); [tauto|reflexivity].
Qed.
End Cond.

(** ** Mode *)

Lemma mode_R dom m f : (forall s, In s (states (shape dom (m_vars m))) -> m_at m s = Fin (f s)) ->
  (exists s, valid dom (m_vars m) s) ->
  exists mx boxes, m_log_mode dom m = Some (boxes, nlog (Fin mx)) /\
    (exists s, valid dom (m_vars m) s /\ f s = mx) /\
    (forall s, valid dom (m_vars m) s -> f s <= mx) /\
    forall b, In b boxes <-> exists s, valid dom (m_vars m) s /\ f s = mx /\
      b = map (fun vi => (fst vi, nth (snd vi) (dom (fst vi)) 0%Z)) (combine (m_vars m) s).
Proof.
  intros Hf [s0 H0]. apply valid_states in H0. unfold m_log_mode.
  set (all := states (shape dom (m_vars m))) in *.
  destruct (pymax_spec (map (m_at m) all)) as (mx & E & Hin & Hmax).
  { apply Forall_map. apply Forall_forall. intros s Hs. rewrite Hf by auto. simpl. auto. }
  { destruct all; [destruct H0|discriminate]. }
  apply in_map_iff in Hin. destruct Hin as (s1 & E1 & H1). rewrite Hf in E1 by auto. subst mx.
  rewrite E. exists (f s1). eexists. split; [reflexivity|]. split; [exists s1; split; auto; now apply valid_states|]. split.
  - intros s Hs. apply valid_states in Hs. assert (H := Hmax (Fin (f s))). simpl in H.
    destruct (Rle_lt_dec (f s) (f s1)); auto. apply exp_increasing in r.
    assert (exp (f s) <= exp (f s1)); [|lra]. apply H. rewrite <- Hf by auto. now apply in_map.
  - intros b. rewrite in_map_iff. split.
    + intros (s & <- & Hs). apply filter_In in Hs. destruct Hs as [Hs He]. exists s. split; [now apply valid_states|]. split; auto.
      rewrite Hf in He by auto. simpl in He. now destruct (Reqb_spec (f s) (f s1)).
    + intros (s & Hs & Es & ->). apply valid_states in Hs. exists s. split; auto. apply filter_In. split; auto.
      rewrite Hf by auto. simpl. destruct (Reqb_spec (f s) (f s1)); auto.
Qed.

(** ** Conversion to a circuit *)
Definition one_hot (v i : nat) : dist := DSym v [(Z.of_nat i, 1)].
Definition hot (d : dist) : Z := match d with DSym _ ((k, _) :: _) => k | _ => 0%Z end.
Definition is_hot (d : dist) : Prop := exists v i, d = one_hot v i.

Definition state_leaves (vars s : list nat) : list dist := map (fun vi => one_hot (fst vi) (snd vi)) (combine vars s).

Lemma circuit_tree_sop dom m : m_circuit_tree dom m =
  sop (map (fun s => (nlog (nexp (nlog (m_at m s))), state_leaves (m_vars m) s)) (states (shape dom (m_vars m)))).
Proof.
  unfold m_circuit_tree, sop, state_leaves. rewrite map_map. f_equal. apply map_ext. intros s. cbn [fst snd]. now rewrite map_map.
Qed.

Lemma state_leaves_hot vars s : Forall is_hot (state_leaves vars s).
Proof. unfold state_leaves. apply Forall_map. apply Forall_forall. intros [v i] _. exists v, i. reflexivity. Qed.

Lemma circuit_hot dom m : all_leaves is_hot (m_circuit_tree dom m).
Proof.
  rewrite circuit_tree_sop. apply sop_leaves. apply Forall_map. apply Forall_forall. intros s _. apply state_leaves_hot.
Qed.

Lemma circuit_leaves_of dom m : all_leaves (fun d => In (dvar d) (m_vars m)) (m_circuit_tree dom m).
Proof.
  rewrite circuit_tree_sop. apply sop_leaves. apply Forall_map. apply Forall_forall. intros s _. cbn [snd]. unfold state_leaves.
  apply Forall_map. apply Forall_forall. intros [v i] H. cbn. eapply in_combine_l. eauto.
Qed.

Section Conv.
Variables (dom : nat -> list Z) (m : multi) (f : list nat -> R).
Hypothesis Hf : forall s, In s (states (shape dom (m_vars m))) -> m_at m s = Fin (f s) /\ 0 <= f s.
Notation all := (states (shape dom (m_vars m))).

Lemma circuit_weights : all_sums (Forall lw_ok) (m_circuit_tree dom m).
Proof.
  rewrite circuit_tree_sop. apply sop_sums. rewrite map_map. cbn [fst]. apply Forall_map. apply Forall_forall. intros s Hs.
  destruct (Hf s Hs) as [-> H]. rewrite nlog_nexp. now apply wexp_nlog.
Qed.

Lemma state_leaves_vars s v : In s all -> In v (flat_map dist_vars (state_leaves (m_vars m) s)) <-> In v (m_vars m).
Proof.
  intros Hs. apply valid_states in Hs. unfold state_leaves. rewrite in_flat_map. split.
  - intros (d & H & Hv). apply in_map_iff in H. destruct H as ([w i] & <- & H). apply in_combine_l in H.
    destruct Hv as [<-|[]]. exact H.
  - intros Hv. unfold valid in Hs. clear Hf. induction Hs as [|w i vars s Hi H IH]; [destruct Hv|]. destruct Hv as [->|Hv].
    + exists (one_hot v i). split; [now left|now left].
    + destruct (IH Hv) as (d & H1 & H2). exists d. split; [now right|auto].
Qed.

Lemma circuit_smooth : smooth dist_vars (m_circuit_tree dom m).
Proof.
  rewrite circuit_tree_sop. apply (sop_smooth dist_vars (m_vars m)). apply Forall_map. apply Forall_forall.
  intros s Hs v. cbn [snd]. now apply state_leaves_vars.
Qed.

Lemma circuit_nonempty : (exists s, valid dom (m_vars m) s) -> sums_nonempty (m_circuit_tree dom m).
Proof.
  clear Hf. intros [s Hs]. apply valid_states in Hs. rewrite circuit_tree_sop. apply sop_sums_nonempty. destruct all; [destruct Hs|discriminate].
Qed.

Lemma Rprod_ind {A} (b : A -> bool) l : Rprod (map (fun a => ind (b a)) l) = ind (forallb b l).
Proof. unfold ind. induction l as [|a l IH]; simpl; auto. rewrite IH. destruct (b a); simpl; lra. Qed.

Lemma circuit_semR (b : nat -> Z -> bool) : semR (fun d => ind (b (dvar d) (hot d))) (m_circuit_tree dom m) =
  Rsum (map f (filter (fun s => forallb (fun vi => b (fst vi) (Z.of_nat (snd vi))) (combine (m_vars m) s)) all)).
Proof.
  rewrite circuit_tree_sop, sop_semR, map_map, Rsum_filter. apply Rsum_ext. intros s Hs. cbn [fst snd].
  destruct (Hf s Hs) as [-> H]. rewrite nlog_nexp. rewrite (proj2 (wexp_nlog _ H)). unfold state_leaves.
  rewrite map_map. cbn [dvar hot one_hot]. rewrite (Rprod_ind (fun vi => b (fst vi) (Z.of_nat (snd vi)))). unfold ind.
  destruct (forallb _ _); lra.
Qed.
End Conv.
