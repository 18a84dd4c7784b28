(** * MountTree: the circuit built by mount_with_interaction_terms as a tree *)
From Coq Require Import List Arith Bool Lia ZArith Reals Lra.
From Verif Require Import Num Graph GraphFacts Spec SpecFacts Circuit EvalFacts VarFacts Interval Dist Simplify SimplifyFacts
  TreeLocal NormalizeFacts Restrict Conditional Copy CopyFacts Heap ModeFacts PropertiesProb Interaction InteractionFacts Mounting.
Import ListNotations.
Local Set Bullet Behavior "Strict Subproofs".
Local Open Scope nat_scope.

Lemma unfolds_agree {D} (g g' : graph D) u t : unfolds g u t ->
  (forall x, reach g u x -> node_kind g' x = node_kind g x /\ out_edges g' x = out_edges g x) -> unfolds g' u t.
Proof.
  revert u t. refine (unfolds_ind' g _ _ _ _); [intros u d Hk|intros u ts Hk Hne HF|intros u ts Hk HF]; intros Ag;
    destruct (Ag u (reach_refl g u)) as [A1 A2].
  - apply unf_leaf. congruence.
  - assert (Ch : forall e x, In e (out_edges g u) -> reach g (e_dst e) x -> reach g u x).
    { intros e x He Hr. eapply reach_trans; [|exact Hr]. apply reach_child. apply in_map_iff. now exists e. }
    apply unf_sum; [congruence|congruence|]. rewrite A2. eapply Forall2_impl_in; [|exact HF]. cbn beta. intros e wt He _ (H1 & _ & H2).
    split; [exact H1|]. apply H2. intros x Hx. apply Ag. eauto.
  - assert (Ch : forall e x, In e (out_edges g u) -> reach g (e_dst e) x -> reach g u x).
    { intros e x He Hr. eapply reach_trans; [|exact Hr]. apply reach_child. apply in_map_iff. now exists e. }
    apply unf_prod; [congruence|]. rewrite A2. eapply Forall2_impl_in; [|exact HF]. cbn beta. intros e t He _ (_ & H2).
    apply H2. intros x Hx. apply Ag. eauto.
Qed.

Lemma Forall2_choice {A B} (R : A -> B -> Prop) l : (forall a, In a l -> exists b, R a b) -> exists l', Forall2 R l l'.
Proof.
  induction l as [|a l IH]; intros H; [exists []; constructor|]. destruct (H a) as [b Hb]; [now left|]. destruct IH as [l' Hl']; [intros; apply H; now right|].
  exists (b :: l'). now constructor.
Qed.

Lemma Forall2_nth {A B} (R : A -> B -> Prop) l l' : Forall2 R l l' -> forall i a, nth_error l i = Some a -> exists b, nth_error l' i = Some b /\ R a b.
Proof.
  induction 1 as [|a b l l' H F IH]; intros i x Hi; [destruct i; discriminate|]. destruct i as [|i]; cbn in *; [injection Hi as <-; eauto|auto].
Qed.

Lemma Forall2_in_r {A B} (R : A -> B -> Prop) l l' b : Forall2 R l l' -> In b l' -> exists a, In a l /\ R a b.
Proof. induction 1 as [|x y l l' H F IH]; intros []; [subst; exists x; split; [now left|auto]|]. destruct IH as (a & Ha & Hr); auto. exists a. split; [now right|auto]. Qed.

Lemma Forall2_in_l {A B} (R : A -> B -> Prop) l l' a : Forall2 R l l' -> In a l -> exists b, In b l' /\ R a b.
Proof. induction 1 as [|x y l l' H F IH]; intros []; [subst; exists y; split; [now left|auto]|]. destruct IH as (b & Hb & Hr); auto. exists b. split; [now right|auto]. Qed.

Lemma enumerate_nth {A} (l : list A) : forall n i a, In (i, a) (enumerate n l) -> n <= i /\ nth_error l (i - n) = Some a.
Proof.
  induction l as [|x l IH]; intros n i a H; [destruct H|]. cbn in H. destruct H as [H|H].
  - injection H as -> ->. rewrite Nat.sub_diag. auto.
  - apply IH in H. destruct H as [H1 H2]. split; [lia|]. replace (i - n) with (S (i - S n)) by lia. exact H2.
Qed.

Section Tree.
Context {D : Type} (dvars : D -> list nat).
Variable c : nat -> R.
Variable M : nat -> nat -> R.

(** The tree of the proxy sum unit [i]: the other mixture with weights [M i j / c i], impossible components left out. *)
Definition proxy_tree (us : list (pc D)) (i : nat) (p : pc D) : Prop :=
  exists l, p = PSum l /\
    Forall2 (fun ju wt => snd wt = snd ju /\ lw_ok (fst wt) /\ wexp (fst wt) = (M i (fst ju) / c i)%R) (filter (keep M i) (enumerate 0 us)) l.

(** The tree of the whole result. *)
Definition mixed_tree (ts us : list (pc D)) (t : pc D) : Prop :=
  exists l, t = PSum l /\
    Forall2 (fun it wt => fst wt = nlog (Fin (c (fst it))) /\ exists p, snd wt = PProd [snd it; p] /\ proxy_tree us (fst it) p) (enumerate 0 ts) l.

Variable pcond : nat -> option num.
Variable pquery : nat -> nat -> option num.

Lemma row_exists (P : id -> pc D -> Prop) (Q : nat -> num -> Prop) i oth us : Forall2 P oth us -> forall n es,
  Forall2 (fun jv e => e_dst e = snd jv /\ exists w, e_lw e = Some w /\ Q (fst jv) w) (filter (keep M i) (enumerate n oth)) es ->
  exists l, Forall2 (fun e wt => e_lw e = Some (fst wt) /\ P (e_dst e) (snd wt)) es l /\
    Forall2 (fun ju wt => snd wt = snd ju /\ Q (fst ju) (fst wt)) (filter (keep M i) (enumerate n us)) l.
Proof.
  induction 1 as [|v u oth us Hp F IH]; intros n es Hes; cbn [enumerate filter] in *.
  - inversion Hes; subst. exists []. split; constructor.
  - unfold keep in Hes at 1. unfold keep at 1. cbn [fst] in *. destruct (negb (Reqb (M i n) 0)).
    + inversion Hes as [|? e ? es' (H1 & w & H2 & H3) Hes']; subst. cbn [fst snd] in *. destruct (IH _ _ Hes') as (l & L1 & L2).
      exists ((w, u) :: l). split; constructor; auto. cbn [fst snd]. rewrite H1. auto.
    + now apply IH.
Qed.

Variables g h : graph D.
Variables self other : id.
Variable nx : nat.
Variables ts us : list (num * pc D).
Hypothesis Lg : layered_circuit g (PSum ts).
Hypothesis Lh : layered_circuit h (PSum us).
Hypothesis Rg : root g = Some self.
Hypothesis Rh : root h = Some other.
Hypothesis apart : forall x, In x (node_ids g) -> ~ In x (node_ids h).
Hypothesis fresh : forall x, In x (node_ids g) \/ In x (node_ids h) -> x < nx.
Hypothesis Hsm : smooth dvars (PSum ts).
Hypothesis Hsm' : smooth dvars (PSum us).
Hypothesis Hdis : forall v, mentions dvars (PSum ts) v -> ~ mentions dvars (PSum us) v.
Hypothesis Hcond : forall i, i < length ts -> pcond i = Some (Fin (c i)) /\ (0 < c i)%R.
Hypothesis Hquery : forall i j, i < length ts -> j < length us -> pquery i j = Some (Fin (M i j)) /\ (0 <= M i j)%R.
Hypothesis Hmarg : forall i, i < length ts -> Rsum (map (M i) (seq 0 (length us))) = c i.

Lemma tree_at_root : exists lvg lvh,
  unfolds g self (PSum ts) /\ unfolds h other (PSum us) /\
  (forall e, In e (g_edges g) -> reach g self (e_src e) -> lvg (e_dst e) = S (lvg (e_src e))) /\ lvg self = 0 /\
  (forall e, In e (g_edges h) -> reach h other (e_src e) -> lvh (e_dst e) = S (lvh (e_src e))) /\ lvh other = 0.
Proof.
  destruct Lg as (_ & _ & r & Hr & (lv & L0 & Ls) & Hu). destruct Lh as (_ & _ & r' & Hr' & (lv' & L0' & Ls') & Hu').
  assert (r = self) as -> by congruence. assert (r' = other) as -> by congruence. exists lv, lv'. auto 10.
Qed.

Theorem mount_interaction_tree : exists G t,
  mount_with_interaction_terms dvars pcond pquery g h self other nx = Some (G, nx + 2 * length ts) /\
  layered_circuit G t /\ root G = Some self /\ mixed_tree (map snd ts) (map snd us) t /\
  (forall x, In x (node_ids G) -> In x (node_ids g) \/ In x (node_ids h) \/ nx <= x < nx + 2 * length ts).
Proof.
  destruct tree_at_root as (lvg & lvh & Ug & Uh & Gg & Gg0 & Gh & Gh0).
  assert (Wg : wf g) by apply Lg. assert (Wh : wf h) by apply Lh.
  assert (LTg : leaves_terminal g) by apply Lg. assert (LTh : leaves_terminal h) by apply Lh.
  assert (Hself : In self (node_ids g)) by now apply root_spec.
  assert (Hroot : ~ In self (map e_dst (g_edges g))) by now apply root_spec.
  assert (Hother : In other (node_ids h)) by now apply root_spec.
  assert (Lo : length (subcircuits g self) = length ts /\ length (subcircuits h other) = length us /\
     Forall2 (fun e wt => unfolds g (e_dst e) (snd wt)) (out_edges g self) ts /\
     Forall2 (fun e wt => unfolds h (e_dst e) (snd wt)) (out_edges h other) us /\
     node_kind g self = Some USum /\ node_kind h other = Some USum /\ ts <> []).
  { inversion Ug as [|? ? K N F|]; subst. inversion Uh as [|? ? K' N' F'|]; subst. unfold subcircuits. rewrite !map_length.
    split; [now apply Forall2_length_eq in F|]. split; [now apply Forall2_length_eq in F'|].
    split; [eapply Forall2_impl_in; [|exact F]; cbn; tauto|]. split; [eapply Forall2_impl_in; [|exact F']; cbn; tauto|].
    split; [exact K|]. split; [exact K'|]. intros ->. apply Forall2_length_eq in F. destruct (out_edges g self); [contradiction|discriminate]. }
  destruct Lo as (Lo & Lh' & Fg & Fh & Ks & Ko & Tne).
  assert (Vars : exists vs ws, unit_variables dvars g (S (length (g_nodes g))) self = Some vs /\ unit_variables dvars h (S (length (g_nodes h))) other = Some ws /\
     existsb (fun v => existsb (Nat.eqb v) ws) vs = false).
  { destruct (unit_variables_spec dvars g self _ Ug Hsm (S (length (g_nodes g)))) as (vs & V1 & _ & V2); [pose proof (height_bound _ _ _ Ug); lia|].
    destruct (unit_variables_spec dvars h other _ Uh Hsm' (S (length (g_nodes h)))) as (ws & W1 & _ & W2); [pose proof (height_bound _ _ _ Uh); lia|].
    exists vs, ws. split; [exact V1|]. split; [exact W1|]. destruct (existsb _ vs) eqn:E; [|reflexivity]. exfalso.
    apply existsb_exists in E. destruct E as (v & Hv & E). apply existsb_eqb_In in E. apply V2 in Hv. apply W2 in E. exact (Hdis v Hv E). }
  destruct Vars as (vs & ws & V1 & V2 & V3).
  destruct (outer_loop pcond pquery c M g h self other nx Wg Wh apart fresh Hself) as ([G nx'] & Ho & Hd).
  { rewrite Lo. exact Hcond. }
  { rewrite Lo, Lh'. exact Hquery. }
  { rewrite Lo, Lh'. exact Hmarg. }
  rewrite Lo in Hd. destruct Hd as (WG & -> & Em & Os & Old & New & Ids). rewrite <- Lo in Os at 1. unfold subcircuits in Os at 1.
  rewrite map_length, skipn_all in Os. cbn [app] in Os.
  set (n := length ts) in *.
  assert (Own : forall i, i < n -> exists v, nth_error (subcircuits g self) i = Some v).
  { intros i Hi. destruct (nth_error (subcircuits g self) i) eqn:E; [eauto|]. apply nth_error_None in E. unfold id in *. lia. }
  (* what is reachable below the own subcircuits *)
  assert (Below : forall v x, In v (subcircuits g self) -> reach g v x -> In x (node_ids g) /\ x <> self).
  { intros v x Hv Hx. assert (In x (map e_dst (g_edges g))) as H.
    { destruct Hx as [|w e _ He _]; [|now apply in_map]. apply subcircuits_In in Hv. destruct Hv as (e & He & _ & <-). now apply in_map. }
    split; [|intros ->; contradiction]. apply in_map_iff in H. destruct H as (e & <- & He). now apply (wf_dst _ Wg). }
  assert (Ung : forall v t, In v (subcircuits g self) -> unfolds g v t -> unfolds G v t).
  { intros v t Hv Hu. apply (unfolds_agree g); [exact Hu|]. intros x Hx. destruct (Below v x Hv Hx) as [B1 B2]. destruct (Old x B1) as [O1 O2]. auto. }
  assert (InsH : forall i jv x, i < n -> In jv (enumerate 0 (subcircuits h other)) -> keep M i jv = true -> reach h (snd jv) x -> In x (node_ids h) /\ In x (node_ids G) /\ reach h other x).
  { intros i jv x Hi Hj Hk Hx. assert (R : reach h other x).
    { eapply reach_trans; [|exact Hx]. apply reach_child. now apply enumerate_In in Hj. }
    split; [|split; [|exact R]].
    - destruct R as [|w e _ He _]; [exact Hother|]. now apply (wf_dst _ Wh).
    - apply Ids. right. right. exists i, jv. auto. }
  assert (Unh : forall i jv t, i < n -> In jv (enumerate 0 (subcircuits h other)) -> keep M i jv = true -> unfolds h (snd jv) t -> unfolds G (snd jv) t).
  { intros i jv t Hi Hj Hk Hu. apply (unfolds_agree h); [exact Hu|]. intros x Hx. destruct (InsH i jv x Hi Hj Hk Hx) as (H1 & H2 & _). now apply Em. }
  (* the tree *)
  assert (TreeEx : exists l, Forall2 (fun it wt => (fst wt = nlog (Fin (c (fst it))) /\ exists p, snd wt = PProd [snd it; p] /\ proxy_tree (map snd us) (fst it) p)
      /\ unfolds G (pn nx (fst it)) (snd wt)) (enumerate 0 (map snd ts)) l).
  { apply Forall2_choice. intros [i t] Hit. cbn [fst snd]. apply enumerate_nth in Hit. rewrite Nat.sub_0_r in Hit. destruct Hit as [_ Hit].
    assert (Hi : i < n). { apply nth_error_Some_lt in Hit || (assert (X : nth_error (map snd ts) i <> None) by congruence; apply nth_error_Some in X; rewrite map_length in X; exact X). }
    destruct (Own i Hi) as [v Hv]. destruct (New i v Hi Hv) as (K1 & K2 & O1 & Row).
    assert (Uv : unfolds G v t).
    { apply Ung; [eapply nth_error_In; eauto|]. unfold subcircuits in Hv.
      assert (F2 : Forall2 (unfolds g) (map e_dst (out_edges g self)) (map snd ts)).
      { clear - Fg. induction Fg; cbn; constructor; auto. }
      destruct (Forall2_nth _ _ _ F2 i v Hv) as (t' & T1 & T2). congruence. }
    assert (F2 : Forall2 (unfolds h) (subcircuits h other) (map snd us)).
    { unfold subcircuits. clear - Fh. induction Fh; cbn; constructor; auto. }
    destruct (row_exists (unfolds h) (fun j w => lw_ok w /\ wexp w = (M i j / c i)%R) i _ _ F2 0 (out_edges G (sn nx i))) as (l & L1 & L2).
    { eapply Forall2_impl_in; [|exact Row]. cbn beta. intros jv e _ _ (_ & H1 & H2). auto. }
    exists (nlog (Fin (c i)), PProd [t; PSum l]). cbn [fst snd]. split.
    - split; [reflexivity|]. exists (PSum l). split; [reflexivity|]. exists l. split; [reflexivity|]. exact L2.
    - apply unf_prod; [exact K1|]. rewrite O1. constructor; [exact Uv|]. constructor; [|constructor]. cbn [e_dst]. apply unf_sum; [exact K2| |].
      + intros X. rewrite X in Row. unfold row_edges in Row. apply Forall2_length_eq in Row. cbn [length] in Row.
        assert (T := row_total pcond c M g h self other).
        assert (E : filter (keep M i) (enumerate 0 (subcircuits h other)) = []) by (destruct (filter (keep M i) (enumerate 0 (subcircuits h other))); [reflexivity|discriminate]).
        rewrite Lo, Lh' in T. specialize (T Hcond Hmarg i Hi). rewrite E in T. cbn in T. lra.
      + eapply Forall2_impl_in; [|exact L1]. cbn beta. intros e wt He _ (H1 & H2). split; [exact H1|].
        destruct (Forall2_in_r _ _ _ _ Row He) as (jv & Hj & _ & Ed & _). apply filter_In in Hj. destruct Hj as [Hj Hk].
        rewrite Ed in *. eapply Unh; eauto. }
  destruct TreeEx as (l & Fl).
  assert (UG : unfolds G self (PSum l)).
  { apply unf_sum.
    - destruct (Old self Hself) as [-> _]. exact Ks.
    - rewrite Os. destruct n as [|n'] eqn:En; [|cbn; discriminate]. destruct ts; [contradiction|discriminate].
    - rewrite Os. assert (E : seq 0 n = map fst (enumerate 0 (map snd ts))) by (rewrite (proj2 (enumerate_spec _ 0)), map_length; reflexivity).
      rewrite E, map_map. clear - Fl. induction Fl as [|it wt ? ? ((H1 & _) & H2) F IH]; cbn [map]; constructor; auto. cbn [e_lw e_dst]. rewrite H1. auto. }
  (* where reachable units come from *)
  assert (Cls : forall x, reach G self x -> x = self \/ (exists i, i < n /\ (x = pn nx i \/ x = sn nx i)) \/ (In x (node_ids g) /\ x <> self /\ reach g self x) \/
     (In x (node_ids h) /\ reach h other x /\ In x (node_ids G))).
  { induction 1 as [|x e Hx IH He Es]; [now left|]. right. assert (Ho' : In e (out_edges G x)) by (apply out_edges_In; auto). destruct IH as [->|[(i & Hi & [-> | ->])|[(X1 & X2 & X3)|(X1 & X2 & X3)]]].
    - rewrite Os in Ho'. apply in_map_iff in Ho'. destruct Ho' as (i & <- & Hi). apply in_seq in Hi. cbn. left. exists i. split; [lia|auto].
    - destruct (Own i Hi) as [v Hv]. destruct (New i v Hi Hv) as (_ & _ & O1 & _). rewrite O1 in Ho'. destruct Ho' as [<-|[<-|[]]]; cbn [e_dst].
      + right. left. destruct (Below v v) as [B1 B2]; [eapply nth_error_In; eauto|constructor|]. split; [auto|]. split; [auto|].
        apply reach_child. eapply nth_error_In; eauto.
      + left. exists i. auto.
    - destruct (Own i Hi) as [v Hv]. destruct (New i v Hi Hv) as (_ & _ & _ & Row). destruct (Forall2_in_r _ _ _ _ Row Ho') as (jv & Hj & _ & Ed & _).
      apply filter_In in Hj. destruct Hj as [Hj Hk]. right. right. rewrite Ed. destruct (InsH i jv (snd jv) Hi Hj Hk (reach_refl _ _)) as (H1 & H2 & H3). auto.
    - destruct (Old x X1) as [_ O2]. rewrite (O2 X2) in Ho'. apply out_edges_In in Ho'. destruct Ho' as [Ho1 Ho2]. right. left.
      assert (Hd : In (e_dst e) (map e_dst (g_edges g))) by now apply in_map. split; [now apply (wf_dst _ Wg)|]. split; [intros X; rewrite X in Hd; contradiction|].
      econstructor; eauto.
    - destruct (Em x X1 X3) as [_ O2]. rewrite O2 in Ho'. apply out_edges_In in Ho'. destruct Ho' as [Ho1 Ho2]. right. right.
      split; [now apply (wf_dst _ Wh)|]. split; [econstructor; eauto|]. now apply (wf_dst _ WG). }
  assert (PSn : forall i, ~ In (pn nx i) (node_ids g) /\ ~ In (sn nx i) (node_ids g) /\ ~ In (pn nx i) (node_ids h) /\ ~ In (sn nx i) (node_ids h)).
  { intros i. repeat split; intros X; first [specialize (fresh _ (or_introl X))|specialize (fresh _ (or_intror X))]; unfold pn, sn in fresh; lia. }
  set (lv := fun x : id => if x =? self then 0 else if in_dec Nat.eq_dec x (node_ids g) then S (lvg x) else if in_dec Nat.eq_dec x (node_ids h) then S (S (lvh x))
      else if Nat.even (x - nx) then 1 else 2).
  assert (lv_self : lv self = 0) by (unfold lv; now rewrite Nat.eqb_refl).
  assert (lv_g : forall x, In x (node_ids g) -> x <> self -> lv x = S (lvg x)).
  { intros x H1 H2. unfold lv. destruct (Nat.eqb_spec x self); [contradiction|]. destruct in_dec; [reflexivity|contradiction]. }
  assert (lv_h : forall x, In x (node_ids h) -> lv x = S (S (lvh x))).
  { intros x H1. unfold lv. destruct (Nat.eqb_spec x self) as [->|]; [exfalso; exact (apart self Hself H1)|]. destruct in_dec as [H|_]; [exfalso; exact (apart x H H1)|].
    destruct in_dec; [reflexivity|contradiction]. }
  assert (lv_p : forall i, lv (pn nx i) = 1 /\ lv (sn nx i) = 2).
  { intros i. destruct (PSn i) as (P1 & P2 & P3 & P4). unfold lv. destruct (Nat.eqb_spec (pn nx i) self) as [E|_]; [rewrite E in P1; contradiction|].
    destruct (Nat.eqb_spec (sn nx i) self) as [E|_]; [rewrite E in P2; contradiction|]. repeat (destruct in_dec; [contradiction|]).
    replace (pn nx i - nx) with (2 * i) by (unfold pn; lia). replace (sn nx i - nx) with (S (2 * i)) by (unfold sn; lia).
    rewrite Nat.even_succ. rewrite <- Nat.negb_even. assert (E : Nat.even (2 * i) = true) by (apply Nat.even_spec; now exists i). rewrite E. auto. }
  assert (RootG : root G = Some self).
  { apply root_intro; [exact WG|apply Ids; auto| |].
    - intros X. apply in_map_iff in X. destruct X as (e & Ed & He). assert (Hs := wf_src _ WG e He). assert (Ho' : In e (out_edges G (e_src e))) by (apply out_edges_In; auto).
      apply Ids in Hs. destruct Hs as [Hs|[(i & Hi & [E|E])|(i & jv & Hi & Hj & Hk & Hr)]].
      + destruct (Nat.eq_dec (e_src e) self) as [E|E].
        * rewrite E, Os in Ho'. apply in_map_iff in Ho'. destruct Ho' as (i & <- & _). cbn in Ed. destruct (PSn i) as (P1 & _). rewrite Ed in P1. contradiction.
        * destruct (Old _ Hs) as [_ O2]. rewrite (O2 E) in Ho'. apply out_edges_In in Ho'. apply Hroot. rewrite <- Ed. now apply in_map.
      + destruct (Own i Hi) as [v Hv]. destruct (New i v Hi Hv) as (_ & _ & O1 & _). rewrite E, O1 in Ho'. destruct Ho' as [<-|[<-|[]]]; cbn [e_dst] in Ed.
        * destruct (Below v v) as [B1 B2]; [eapply nth_error_In; eauto|constructor|]. contradiction.
        * destruct (PSn i) as (_ & P2 & _). rewrite Ed in P2. contradiction.
      + destruct (Own i Hi) as [v Hv]. destruct (New i v Hi Hv) as (_ & _ & _ & Row). rewrite E in Ho'. destruct (Forall2_in_r _ _ _ _ Row Ho') as (jv & Hj & _ & Ed' & _).
        apply filter_In in Hj. destruct Hj as [Hj Hk]. destruct (InsH i jv (snd jv) Hi Hj Hk (reach_refl _ _)) as (H1 & _). rewrite <- Ed', Ed in H1. exact (apart self Hself H1).
      + destruct (InsH i jv _ Hi Hj Hk Hr) as (H1 & H2 & _). destruct (Em _ H1 H2) as [_ O2]. rewrite O2 in Ho'. apply out_edges_In in Ho'. destruct Ho' as [Ho1 _].
        apply (apart self Hself). rewrite <- Ed. now apply (wf_dst _ Wh).
    - assert (Mk : forall e x, In e (out_edges G x) -> In (e_dst e) (map e_dst (g_edges G))) by (intros e x He; apply out_edges_In in He; now apply in_map).
      intros x Hx Nx. apply Ids in Hx. destruct Hx as [Hx|[(i & Hi & [-> | ->])|(i & jv & Hi & Hj & Hk & Hr)]].
      + assert (Y : In x (map e_dst (g_edges g))).
        { destruct (in_dec Nat.eq_dec x (map e_dst (g_edges g))) as [Y|Y]; [exact Y|]. exfalso. apply Nx. eapply root_unique; eauto. }
        apply in_map_iff in Y. destruct Y as (e & Ed & He). destruct (Nat.eq_dec (e_src e) self) as [Es|Es].
        * assert (Hc : In x (subcircuits g self)) by (apply subcircuits_In; exists e; auto). apply In_nth_error in Hc. destruct Hc as [i Hi'].
          assert (Hi : i < n). { rewrite <- Lo. apply nth_error_Some. congruence. }
          destruct (New i x Hi Hi') as (_ & _ & O1 & _). apply (Mk (mkEdge (pn nx i) x None) (pn nx i)). rewrite O1. now left.
        * destruct (Old (e_src e) (wf_src _ Wg e He)) as [_ O2]. rewrite <- Ed. apply (Mk e (e_src e)). rewrite (O2 Es). apply out_edges_In. auto.
      + apply (Mk (mkEdge self (pn nx i) (Some (nlog (Fin (c i))))) self). rewrite Os. apply in_map_iff. exists i. split; [reflexivity|]. apply in_seq. lia.
      + destruct (Own i Hi) as [v Hv]. destruct (New i v Hi Hv) as (_ & _ & O1 & _). apply (Mk (mkEdge (pn nx i) (sn nx i) None) (pn nx i)). rewrite O1. right. now left.
      + destruct Hr as [|w e Hr He Es].
        * destruct (Own i Hi) as [v Hv]. destruct (New i v Hi Hv) as (_ & _ & _ & Row).
          destruct (Forall2_in_l _ _ _ jv Row) as (e & He & _ & Ed & _); [apply filter_In; auto|]. rewrite <- Ed. now apply (Mk e (sn nx i)).
        * destruct (InsH i jv w Hi Hj Hk Hr) as (H1 & H2 & _). destruct (Em w H1 H2) as [_ O2]. apply (Mk e w). rewrite O2. apply out_edges_In. auto. }
  exists G, (PSum l). split; [|split; [|split; [|split]]].
  - unfold mount_with_interaction_terms. rewrite V1, V2, V3. exact Ho.
  - split; [exact WG|]. split; [|exists self; split; [exact RootG|split; [|exact UG]]].
    + intros e d He Hk. assert (Hs := wf_src _ WG e He). assert (Ho' : In e (out_edges G (e_src e))) by (apply out_edges_In; auto).
      apply Ids in Hs. destruct Hs as [Hs|[(i & Hi & [E|E])|(i & jv & Hi & Hj & Hk' & Hr)]].
      * destruct (Old _ Hs) as [O1 O2]. rewrite O1 in Hk. destruct (Nat.eq_dec (e_src e) self) as [E|E]; [rewrite E in Hk; congruence|].
        rewrite (O2 E) in Ho'. apply out_edges_In in Ho'. destruct Ho' as [Ho1 _]. exact (LTg e d Ho1 Hk).
      * destruct (Own i Hi) as [v Hv]. destruct (New i v Hi Hv) as (K1 & _). rewrite E in Hk. congruence.
      * destruct (Own i Hi) as [v Hv]. destruct (New i v Hi Hv) as (_ & K2 & _). rewrite E in Hk. congruence.
      * destruct (InsH i jv _ Hi Hj Hk' Hr) as (H1 & H2 & _). destruct (Em _ H1 H2) as [O1 O2]. rewrite O1 in Hk. rewrite O2 in Ho'. apply out_edges_In in Ho'. destruct Ho' as [Ho1 _].
        exact (LTh e d Ho1 Hk).
    + exists lv. split; [exact lv_self|]. intros e He Hr. assert (Ho' : In e (out_edges G (e_src e))) by (apply out_edges_In; auto).
      destruct (Cls _ Hr) as [E|[(i & Hi & [E|E])|[(X1 & X2 & X3)|(X1 & X2 & X3)]]].
      * rewrite E in *. rewrite Os in Ho'. apply in_map_iff in Ho'. destruct Ho' as (i & <- & _). cbn [e_dst]. rewrite lv_self. apply lv_p.
      * rewrite E in *. destruct (lv_p i) as [-> L2]. destruct (Own i Hi) as [v Hv]. destruct (New i v Hi Hv) as (_ & _ & O1 & _). rewrite O1 in Ho'.
        destruct Ho' as [<-|[<-|[]]]; cbn [e_dst]; [|exact L2]. assert (Hc := nth_error_In _ _ Hv). destruct (Below v v Hc (reach_refl _ _)) as [B1 B2].
        rewrite lv_g by auto. apply subcircuits_In in Hc. destruct Hc as (e & He' & Es & <-). rewrite (Gg e He'); [rewrite Es, Gg0; reflexivity|]. rewrite Es. constructor.
      * rewrite E in *. destruct (lv_p i) as [_ ->]. destruct (Own i Hi) as [v Hv]. destruct (New i v Hi Hv) as (_ & _ & _ & Row).
        destruct (Forall2_in_r _ _ _ _ Row Ho') as (jv & Hj & _ & Ed & _). apply filter_In in Hj. destruct Hj as [Hj Hk].
        destruct (InsH i jv (snd jv) Hi Hj Hk (reach_refl _ _)) as (H1 & H2 & _). rewrite Ed, lv_h by auto. apply enumerate_In in Hj. destruct Hj as [_ Hj].
        apply subcircuits_In in Hj. destruct Hj as (e' & He' & Es & <-). rewrite (Gh e' He'); [rewrite Es, Gh0; reflexivity|]. rewrite Es. constructor.
      * destruct (Old _ X1) as [_ O2]. rewrite (O2 X2) in Ho'. apply out_edges_In in Ho'. destruct Ho' as [Ho1 _]. rewrite (lv_g (e_src e)) by auto.
        rewrite <- (Gg e Ho1 X3). apply lv_g; [now apply (wf_dst _ Wg)|]. intros X. apply Hroot. rewrite <- X. now apply in_map.
      * destruct (Em _ X1 X3) as [_ O2]. rewrite O2 in Ho'. apply out_edges_In in Ho'. destruct Ho' as [Ho1 _]. rewrite (lv_h (e_src e)) by auto.
        rewrite <- (Gh e Ho1 X2). apply lv_h. now apply (wf_dst _ Wh).
  - exact RootG.
  - exists l. split; [reflexivity|]. eapply Forall2_impl_in; [|exact Fl]. cbn beta. tauto.
  - intros x Hx. apply Ids in Hx. destruct Hx as [H|[(i & Hi & H)|(i & jv & Hi & Hj & Hk & Hr)]]; [auto| |].
    + right. right. unfold pn, sn in H. lia.
    + right. left. now destruct (InsH i jv x Hi Hj Hk Hr).
Qed.
End Tree.
