(** * ModeFacts: what the determinism check establishes, and the maximum of a deterministic circuit *)
From Coq Require Import List Arith Bool Lia Reals Lra ZArith.
From Verif Require Import Num Graph GraphFacts Spec SpecFacts Circuit EvalFacts VarFacts Interval GaussInt Dist DistFacts
  TreeProb TreeLocal LeafCond Support SupportFacts.
Import ListNotations.
Local Open Scope nat_scope.

(** ** The determinism check on the tree *)
Section Check.
Variables (g : graph dist) (r : id) (t : pc dist) (st' : store event).
Hypothesis Hwf : wf g.
Hypothesis Hlt : leaves_terminal g.
Hypothesis Hroot : root g = Some r.
Hypothesis Hu : unfolds g r t.
Hypothesis Hpn : products_nonempty t.
Hypothesis Hst : forall u t', reach g r u -> unfolds g u t' -> st' u = tsupp t'.

Lemma hered_products_nonempty : hereditary products_nonempty.
Proof. split; intros l H; simpl in H; [|destruct H as [_ H]]; now apply fold_and_Forall in H. Qed.

Lemma hered_disjoint_supports : hereditary disjoint_supports.
Proof. split; intros l H; simpl in H; [destruct H as [_ H]|]; now apply fold_and_Forall in H. Qed.

Lemma sum_check u ts : reach g r u -> unfolds g u (PSum ts) -> products_nonempty (PSum ts) ->
  exists l, unit_deterministic g st' u = Some (none_intersect l) /\ Forall2 (fun wt E => tsupp (snd wt) = Some E) ts l.
Proof.
  intros Hr Hts Hp. inversion Hts as [|? ? Hk Hne HF|]; subst. cbn [products_nonempty] in Hp. rewrite fold_and_Forall in Hp.
  assert (H : exists l, mapM st' (subcircuits g u) = Some l /\ Forall2 (fun wt E => tsupp (snd wt) = Some E) ts l).
  { unfold subcircuits. assert (Hin : forall e, In e (out_edges g u) -> reach g r (e_dst e)).
    { intros e He. apply out_edges_In in He. eapply reach_step; eauto; tauto. }
    clear Hne Hts. induction HF as [|e wt es ts' [H1 H2] HF IH]; [exists []; split; constructor|].
    inversion Hp; subst. destruct IH as (l & L1 & L2); auto; [intros; apply Hin; now right|].
    destruct (tsupp_defined (snd wt)) as [E HE]; auto; [eapply unfolds_sums_nonempty; eauto|].
    exists (E :: l). split; [|constructor; auto]. cbn [map]. unfold mapM in *.
    rewrite (Hst (e_dst e) (snd wt)); auto; [|apply Hin; now left]. now rewrite HE, L1. }
  destruct H as (l & H1 & H2). exists l. unfold unit_deterministic. rewrite H1. auto.
Qed.

Lemma checked_disjoint : (forall u, reach g r u -> node_kind g u = Some USum -> unit_deterministic g st' u = Some true) ->
  disjoint_supports t.
Proof.
  intros Hc. assert (Hr : reach g r r) by apply reach_refl. revert Hr Hpn. clear Hroot.
  enough (G : forall u t, unfolds g u t -> reach g r u -> products_nonempty t -> disjoint_supports t) by (apply G, Hu). clear Hu t.
  refine (unfolds_ind' g _ _ _ _); [intros u d Hk|intros u ts Hk Hne HF|intros u ts Hk HF]; intros Hr Hp.
  - exact I.
  - assert (Hus : unfolds g u (PSum ts)).
    { apply unf_sum; auto. clear - HF. induction HF; constructor; auto; tauto. }
    destruct (sum_check u ts Hr Hus Hp) as (l & L1 & L2). rewrite (Hc u Hr Hk) in L1. injection L1 as L1. symmetry in L1.
    rewrite none_intersect_spec in L1. cbn [disjoint_supports products_nonempty] in *. rewrite fold_and_Forall in *. split.
    + intros i j a b E F Hij Ha Hb HE HF'. apply (L1 i j E F Hij).
      * clear - L2 Ha HE. revert i Ha. induction L2; intros [|i] Hi; simpl in *; try discriminate; auto. congruence.
      * clear - L2 Hb HF'. revert j Hb. induction L2; intros [|i] Hi; simpl in *; try discriminate; auto. congruence.
    + assert (Hin : forall e, In e (out_edges g u) -> reach g r (e_dst e)).
      { intros e He. apply out_edges_In in He. eapply reach_step; eauto; tauto. }
      clear - HF Hp Hin. induction HF as [|e wt es ts (H1 & H2 & H3) HF IH]; constructor.
      * inversion Hp; subst. apply H3; auto. apply Hin. now left.
      * inversion Hp; subst. apply IH; auto. intros; apply Hin; now right.
  - cbn [disjoint_supports products_nonempty] in *. destruct Hp as [_ Hp]. rewrite fold_and_Forall in *.
    assert (Hin : forall e, In e (out_edges g u) -> reach g r (e_dst e)).
    { intros e He. apply out_edges_In in He. eapply reach_step; eauto; tauto. }
    clear - HF Hp Hin. induction HF as [|e wt es ts (H2 & H3) HF IH]; constructor.
    * inversion Hp; subst. apply H3; auto. apply Hin. now left.
    * inversion Hp; subst. apply IH; auto. intros; apply Hin; now right.
Qed.

Lemma disjoint_checked : disjoint_supports t ->
  forall u, reach g r u -> node_kind g u = Some USum -> unit_deterministic g st' u = Some true.
Proof.
  intros Hd u Hr Hk. destruct (reach_hereditary (fun t => disjoint_supports t /\ products_nonempty t) g r t u) as (t' & Ht' & Hd' & Hp'); auto.
  - apply hered_and; [apply hered_disjoint_supports|apply hered_products_nonempty].
  - inversion Ht' as [|? ts Hk' Hne HF|]; subst; try congruence.
    destruct (sum_check u ts Hr Ht' Hp') as (l & L1 & L2). rewrite L1. f_equal. apply none_intersect_spec.
    intros i j E F Hij HE HF'. destruct Hd' as [Hd' _].
    assert (H : forall k G, nth_error l k = Some G -> exists a, nth_error ts k = Some a /\ tsupp (snd a) = Some G).
    { clear - L2. induction L2; intros [|k] G HG; simpl in *; try discriminate; eauto. injection HG as <-. eauto. }
    destruct (H _ _ HE) as (a & Ha1 & Ha2). destruct (H _ _ HF') as (b & Hb1 & Hb2). eapply Hd'; eauto.
Qed.
End Check.

Lemma circuit_support_correct g r t st E : wf g -> leaves_terminal g -> root g = Some r -> graded g r -> unfolds g r t ->
  tsupp t = Some E -> exists st', circuit_support g st = Some (E, st') /\ forall u t', reach g r u -> unfolds g u t' -> st' u = tsupp t'.
Proof.
  intros. destruct (run_pass_correct dist_support sum_support prod_support g r t E st) as (st' & H5 & H6 & _); auto.
  exists st'. split; auto.
Qed.

(** The check always returns an answer, and the answer is whether the supports are disjoint. *)
Lemma is_deterministic_correct g r t st : wf g -> acyclic g -> leaves_terminal g -> root g = Some r -> graded g r -> unfolds g r t ->
  products_nonempty t -> exists b st', is_deterministic g st = Some (b, st') /\ (b = true <-> disjoint_supports t).
Proof.
  intros Hwf Hac Hlt Hr Hg Hu Hp. destruct (tsupp_defined t) as [E HE]; auto; [eapply unfolds_sums_nonempty; eauto|].
  destruct (circuit_support_correct g r t st E) as (st' & H1 & H2); auto. unfold is_deterministic. rewrite H1.
  assert (Hall : forall u, In u (sum_nodes g) -> exists b, unit_deterministic g st' u = Some b).
  { intros u Hin. assert (Hk := sum_nodes_kind g u Hwf Hin).
    destruct (reach_hereditary products_nonempty g r t u) as (t' & Ht' & Hp'); auto.
    - apply hered_products_nonempty.
    - apply root_reaches_all; auto. eapply node_kind_ids; eauto.
    - inversion Ht' as [|? ts Hk' Hne HF|]; subst; try congruence.
      destruct (sum_check g r st' H2 u ts) as (l & L1 & _); eauto. apply root_reaches_all; auto. eapply node_kind_ids; eauto. }
  assert (Hb : exists b, all_opt (map (unit_deterministic g st') (sum_nodes g)) = Some b).
  { clear - Hall. induction (sum_nodes g) as [|u l IH]; simpl; eauto. destruct (Hall u) as [b ->]; [now left|].
    destruct b; eauto. apply IH. intros; apply Hall; now right. }
  destruct Hb as [b Hb]. rewrite Hb. exists b, st'. split; auto. split.
  - intros ->. apply all_opt_true in Hb. rewrite Forall_map, Forall_forall in Hb.
    apply (checked_disjoint g r t st'); auto. intros u _ Hk. apply Hb. now apply sum_nodes_In.
  - intros Hd. enough (all_opt (map (unit_deterministic g st') (sum_nodes g)) = Some true) by congruence.
    apply all_opt_true. rewrite Forall_map, Forall_forall. intros u Hin. assert (Hk := sum_nodes_kind g u Hwf Hin).
    apply (disjoint_checked g r t st'); auto. apply root_reaches_all; auto. eapply node_kind_ids; eauto.
Qed.

(** A positive answer does not need acyclicity. *)
Lemma is_deterministic_sound g r t st st' : wf g -> leaves_terminal g -> root g = Some r -> graded g r -> unfolds g r t ->
  products_nonempty t -> is_deterministic g st = Some (true, st') -> disjoint_supports t.
Proof.
  intros Hwf Hlt Hr Hg Hu Hp Hd. destruct (tsupp_defined t) as [E HE]; auto; [eapply unfolds_sums_nonempty; eauto|].
  destruct (circuit_support_correct g r t st E) as (st2 & H1 & H2); auto. unfold is_deterministic in Hd. rewrite H1 in Hd.
  destruct (all_opt _) as [b|] eqn:Hb; [|discriminate]. injection Hd as -> <-. apply all_opt_true in Hb.
  rewrite Forall_map, Forall_forall in Hb. apply (checked_disjoint g r t st2); auto. intros u _ Hk. apply Hb. now apply sum_nodes_In.
Qed.

(** ** Mutually exclusive children *)

(** At every point at most one child of each sum unit has positive likelihood. *)
Fixpoint exclusive (t : pc dist) : Prop :=
  match t with
  | PLeaf _ => True
  | PSum l => (forall i j a b x, i <> j -> nth_error l i = Some a -> nth_error l j = Some b ->
                 ~ (positive (lik (snd a) x) /\ positive (lik (snd b) x))) /\
              fold_right and True (map (fun wt => exclusive (snd wt)) l)
  | PProd l => fold_right and True (map exclusive l)
  end.

Lemma disjoint_exclusive t : all_leaves dist_ok t -> sums_nonempty t -> products_nonempty t -> disjoint_supports t -> exclusive t.
Proof.
  induction t as [d|l IH|l IH] using pc_ind'; auto.
  - cbn [all_leaves sums_nonempty products_nonempty disjoint_supports exclusive]. rewrite !fold_and_Forall, Forall_map_id.
    intros Hok [_ Hs] Hp [Hd Hds]. split; [|rewrite Forall_forall in *; auto].
    assert (K : forall i j a b x, i < j -> nth_error l i = Some a -> nth_error l j = Some b -> positive (lik (snd a) x) -> positive (lik (snd b) x) -> False).
    { intros i j a b x Hij Ha Hb Pa Pb. assert (Ia := nth_error_In _ _ Ha). assert (Ib := nth_error_In _ _ Hb). rewrite Forall_forall in *.
      destruct (tsupp_defined (snd a)) as [E HE]; auto. destruct (tsupp_defined (snd b)) as [F HF]; auto.
      destruct (tsupp_spec (snd a) E) as [G1 G2]; auto. destruct (tsupp_spec (snd b) F) as [G3 G4]; auto.
      assert (Hi := in_event_inter E F x G1 G3). rewrite (G2 x Pa), (G4 x Pb), (Hd i j a b E F) in Hi; auto; discriminate. }
    intros i j a b x Hij Ha Hb [Pa Pb]. destruct (lt_eq_lt_dec i j) as [[H|H]|H]; [eapply (K i j)|congruence|eapply (K j i)]; eauto.
  - cbn [all_leaves sums_nonempty products_nonempty disjoint_supports exclusive]. rewrite !fold_and_Forall, Forall_map_id.
    intros Hok Hs [_ Hp] Hd. rewrite Forall_forall in *. auto.
Qed.

(** ** Completeness of the support for finite densities *)
Local Open Scope R_scope.

Definition finite_density (d : dist) : Prop := forall x, exists y, nexp (ll1 d x) = Fin y /\ 0 <= y.

Lemma cap_finite d : dist_ok d -> cap_ok d -> forall x, nexp (ll1 d x) = Fin (density d x).
Proof.
  intros Hok Hc x. unfold density. enough (H : exists y, nexp (ll1 d x) = Fin y) by (destruct H as [y ->]; auto).
  destruct d as [v i|v l c|v mu s|v i mu s|v p|v p]; cbn [ll1].
  - destruct Hok as (a & b & Ha & Hb & Hab). destruct (in_sint i x); [|simpl; eauto]. rewrite Ha, Hb. simpl. tot; try lra. simpl. eauto.
  - destruct Hc as (c' & -> & Hc). destruct (Reqb x l); [|simpl; eauto]. simpl. tot; try lra. simpl. eauto.
  - destruct (gauss_logpdf_fin mu s x Hok) as [y ->]. simpl. eauto.
  - destruct (in_sint i x) eqn:Ex; [|simpl; eauto].
    destruct (density_pos (DTGauss v i mu s) i x) as [E _]; simpl; auto. cbn [ll1] in E. rewrite Ex in E. rewrite E. simpl. eauto.
  - destruct (fold_ll_key p x NInf) as [->|(k & q & H1 & -> & ->)]; [simpl; eauto|]. simpl.
    destruct Hok as [[_ Hq] _]. rewrite Forall_forall in Hq. assert (0 <= q) by (apply Hq, in_map_iff; exists (k, q); auto). tot; simpl; eauto. lra.
  - destruct (fold_ll_key p x NInf) as [->|(k & q & H1 & -> & ->)]; [simpl; eauto|]. simpl.
    destruct Hok as [[_ Hq] _]. rewrite Forall_forall in Hq. assert (0 <= q) by (apply Hq, in_map_iff; exists (k, q); auto). tot; simpl; eauto. lra.
Qed.

Lemma density_nonneg d x : dist_ok d -> cap_ok d -> 0 <= density d x.
Proof. intros H1 H2. assert (H := nexp_nonneg (ll1 d x)). rewrite cap_finite in H; auto. Qed.

Lemma leaf_support_complete d x : dist_ok d -> cap_ok d -> in_evset (support1 d) x = true -> 0 < density d x.
Proof.
  intros Hok Hc Hx. destruct d as [v i|v l c|v mu s|v i mu s|v p|v p]; cbn [support1 in_evset in_interval existsb] in Hx; rewrite ?orb_false_r in Hx.
  - apply (density_pos (DUnif v i) i x); simpl; auto.
  - assert (x = l) as -> by (unfold in_sint, above, below in Hx; simpl in Hx; rb; simpl in Hx; try discriminate; lra).
    unfold density. cbn [ll1]. destruct (Reqb_spec l l); [|congruence]. destruct Hc as (c' & -> & Hc). rewrite nexp_nlog; simpl; lra.
  - apply (density_pos (DGauss v mu s) ireals x); simpl; auto.
  - apply (density_pos (DTGauss v i mu s) i x); simpl; auto.
  - apply existsb_exists in Hx. destruct Hx as [k [Hk Ek]]. destruct (Reqb_spec (IZR k) x); [subst x|discriminate].
    apply in_map_iff in Hk. destruct Hk as [[k' q] [<- Hk]]. apply filter_In in Hk. simpl in *. destruct Hk as [Hk Hq].
    destruct (Rltb_spec 0 q); [|discriminate]. unfold density. cbn [ll1].
    rewrite (fold_ll_in p k' q); auto; [|apply Hok]. rewrite nexp_nlog; simpl; lra.
  - apply existsb_exists in Hx. destruct Hx as [j [Hk Ek]]. apply in_map_iff in Hk. destruct Hk as [[k q] [<- Hk]].
    apply filter_In in Hk. simpl in *. destruct Hk as [Hk Hq].
    assert (x = IZR k) as -> by (unfold in_sint, above, below in Ek; simpl in Ek; rb; simpl in Ek; try discriminate; lra).
    destruct (Rltb_spec 0 q); [|discriminate]. unfold density. cbn [ll1].
    rewrite (fold_ll_in p k q); auto; [|apply Hok]. rewrite nexp_nlog; simpl; lra.
Qed.

Definition likR (t : pc dist) (x : nat -> R) : R := semR (fun d => density d (x (dvar d))) t.

Lemma lik_R t x : all_leaves dist_ok t -> all_leaves cap_ok t -> all_sums (Forall lw_ok) t -> lik t x = Fin (likR t x).
Proof.
  intros Hok Hc Hw. unfold lik, likR. rewrite <- semN_semR by auto. apply semN_ext.
  eapply all_leaves_impl; [|apply (all_leaves_and _ _ _ Hok Hc)]. simpl. intros d [H1 H2]. now apply cap_finite.
Qed.

Lemma likR_nonneg t x : all_leaves dist_ok t -> all_leaves cap_ok t -> 0 <= likR t x.
Proof.
  intros Hok Hc. apply semR_nonneg. eapply all_leaves_impl; [|apply (all_leaves_and _ _ _ Hok Hc)]. simpl. intros d [H1 H2].
  now apply density_nonneg.
Qed.

Lemma Rsum_nonneg_pos l : Forall (fun x => 0 <= x) l -> Exists (fun x => 0 < x) l -> 0 < Rsum l.
Proof.
  intros Hn Hp. assert (Hs : forall l, Forall (fun x => 0 <= x) l -> 0 <= Rsum l) by (clear; induction 1; simpl; lra).
  induction Hp as [a l Ha|a l Hl IH]; inversion Hn; subst; simpl; [specialize (Hs l H2); lra|specialize (IH H2); lra].
Qed.

Lemma tsupp_complete t E : all_leaves dist_ok t -> all_leaves cap_ok t -> all_sums (Forall lw_finite) t -> tsupp t = Some E ->
  forall x, in_event E x = true -> 0 < likR t x.
Proof.
  unfold tsupp. revert E. induction t as [d|l IH|l IH] using pc_ind'; intros E Hok Hc Hw HE x Hx.
  - simpl in HE. injection HE as <-. rewrite in_leaf_event in Hx. now apply leaf_support_complete.
  - cbn [tev] in HE. destruct (mapM _ l) as [vs|] eqn:Em; [|discriminate]. apply mapM_Forall2 in Em.
    cbn [all_leaves all_sums] in *. rewrite fold_and_Forall in *. destruct Hw as [Hw1 Hw].
    destruct vs as [|p vs]; [discriminate|]. cbn [sum_support] in HE. injection HE as <-. rewrite in_fold_union in Hx.
    change (existsb (fun F => in_event F x) (map snd (p :: vs)) = true) in Hx.
    apply Rsum_nonneg_pos.
    + apply Forall_map. rewrite Forall_forall in *. intros wt Hin. apply Rmult_le_pos; [apply wexp_nonneg|].
      apply likR_nonneg; auto.
    + clear - IH Hok Hc Hw1 Hw Em Hx. remember (p :: vs) as ps. clear Heqps p vs. induction Em as [|[w t] q l ps H Em IHm]; [discriminate|].
      inversion IH; subst. inversion Hok; subst. inversion Hc; subst. inversion Hw; subst. inversion Hw1; subst. simpl in *.
      destruct (tev _ _ _ t) as [F|] eqn:EF; [|discriminate]. injection H as <-. simpl in *.
      apply orb_true_iff in Hx. destruct Hx as [Hx|Hx].
      * left. apply Rmult_lt_0_compat; [destruct w; simpl in *; try tauto; apply exp_pos|]. apply (H2 F); auto.
      * right. auto.
  - cbn [tev] in HE. destruct (mapM _ l) as [vs|] eqn:Em; [|discriminate]. apply mapM_Forall2 in Em.
    assert (Hgood : Forall event_good vs).
    { cbn [all_leaves] in Hok. rewrite fold_and_Forall in Hok. clear - Em Hok. induction Em; inversion Hok; subst; constructor; auto.
      eapply tsupp_spec; eauto. }
    cbn [all_leaves all_sums] in *. rewrite fold_and_Forall in *.
    destruct vs as [|F vs]; [discriminate|]. cbn [prod_support] in HE. injection HE as <-.
    inversion Hgood; subst. rewrite in_fold_inter in Hx by auto.
    change (forallb (fun F => in_event F x) (F :: vs) = true) in Hx. unfold likR. cbn [semR].
    clear - IH Hok Hc Hw Em Hx. remember (F :: vs) as ps. clear Heqps F vs. induction Em as [|t F l ps H Em IHm]; simpl; [lra|].
    inversion IH; subst. inversion Hok; subst. inversion Hc; subst. inversion Hw; subst. simpl in *.
    apply andb_true_iff in Hx. destruct Hx as [Hx1 Hx2]. apply Rmult_lt_0_compat; [apply (H2 F)|]; auto.
Qed.

(** ** Modes of leaves *)

(** The mode of a truncated Gaussian lies in its interval: the interval contains the location, or is closed at the end next
    to it.  At an open end the code answers with the neighbouring floating point number. *)
Definition mode_ok (d : dist) : Prop :=
  match d with
  | DTGauss _ i mu _ => in_sint i mu = true \/ (exists a, lo i = Fin a /\ mu < a /\ lc i = true) \/
                        (exists b, hi i = Fin b /\ b < mu /\ rc i = true)
  | _ => True
  end.

Lemma gauss_log_mono mu s x y : 0 < s -> (x - mu) * (x - mu) <= (y - mu) * (y - mu) ->
  exists a b, gauss_logpdf mu s x = Fin a /\ gauss_logpdf mu s y = Fin b /\ b <= a.
Proof.
  intros Hs H. destruct (gauss_logpdf_fin mu s x Hs) as [a Ha]. destruct (gauss_logpdf_fin mu s y Hs) as [b Hb].
  exists a, b. split; auto. split; auto. unfold gauss_logpdf in Ha, Hb. destruct (Rlt_dec 0 s); [|tauto].
  assert (Px : 0 < phi ((x - mu) / s) / s) by (apply Rdiv_lt_0_compat; auto using phi_pos).
  assert (Py : 0 < phi ((y - mu) / s) / s) by (apply Rdiv_lt_0_compat; auto using phi_pos).
  simpl in Ha, Hb. tot; try lra. injection Ha as <-. injection Hb as <-.
  assert (Hp : phi ((y - mu) / s) / s <= phi ((x - mu) / s) / s).
  { apply Rmult_le_compat_r; [left; now apply Rinv_0_lt_compat|]. unfold phi. apply Rmult_le_compat_r; [left; apply Rinv_0_lt_compat, sqrt_2PI_pos|].
    assert (E : - ((y - mu) / s * ((y - mu) / s)) / 2 <= - ((x - mu) / s * ((x - mu) / s)) / 2).
    { replace ((y - mu) / s * ((y - mu) / s)) with ((y - mu) * (y - mu) * (/ s * / s)) by (field; lra).
      replace ((x - mu) / s * ((x - mu) / s)) with ((x - mu) * (x - mu) * (/ s * / s)) by (field; lra).
      assert (0 < / s * / s) by (apply Rmult_lt_0_compat; now apply Rinv_0_lt_compat). nra. }
    destruct E as [E|E]; [left; now apply exp_increasing|rewrite E; lra]. }
  destruct Hp as [Hp|Hp]; [left; now apply ln_increasing|rewrite Hp; lra].
Qed.

Lemma sq_zero_le m x : (m - m) * (m - m) <= (x - m) * (x - m).
Proof. replace ((m - m) * (m - m)) with 0 by ring. apply Rle_0_sqr. Qed.

Lemma density_wexp d x : lw_ok (ll1 d x) -> density d x = wexp (ll1 d x).
Proof. unfold density. destruct (ll1 d x); simpl; tauto. Qed.

Lemma wexp_le a b : lw_ok a -> lw_ok b -> (a = NInf \/ exists x y, a = Fin x /\ b = Fin y /\ x <= y) -> wexp a <= wexp b.
Proof.
  intros Ha Hb [->|(x & y & -> & -> & H)]; simpl; [apply wexp_nonneg|]. destruct H as [H| ->]; [left; now apply exp_increasing|lra].
Qed.

(** What the mode of a leaf has to satisfy. *)
Definition leaf_mode (d : dist) (A : evset) (m : num) : Prop :=
  lw_ok m /\ evset_good A /\ (forall x, density d x <= wexp m) /\ (forall x, in_evset A x = true -> density d x = wexp m) /\
  exists x, in_evset A x = true.

Lemma in_isingleton x y : in_interval [isingleton x] y = true <-> y = x.
Proof. unfold in_interval, in_sint, above, below. simpl. rewrite orb_false_r. rb; simpl; split; intros; try lra; auto; try discriminate. Qed.

Lemma point_mode d z m : ll1 d z = m -> lw_ok m -> (forall x, density d x <= wexp m) -> leaf_mode d (EInt [isingleton z]) m.
Proof.
  intros Hm Hw Hle. split; [auto|split; [|split; [auto|split]]].
  - constructor; auto. apply isingleton_ok.
  - intros x Hx. cbn [in_evset] in Hx. apply in_isingleton in Hx. subst x m. now apply density_wexp.
  - exists z. cbn [in_evset]. now apply in_isingleton.
Qed.

Lemma dmax_spec p : dict_ok p -> Rsum (vals p) = 1 -> exists m, dmax p = Some m /\ 0 <= m /\ (forall k q, In (k, q) p -> q <= m) /\ exists k, In (k, m) p.
Proof.
  intros [_ Hn] Hs. unfold dmax. destruct (vals p) as [|x l] eqn:E; [simpl in Hs; lra|]. exists (fold_left Rmax l x).
  assert (Hge : forall l a, a <= fold_left Rmax l a /\ (forall x, In x l -> x <= fold_left Rmax l a)).
  { clear. induction l as [|b l IH]; simpl; intros a; [split; [lra|tauto]|]. destruct (IH (Rmax a b)) as [H1 H2].
    assert (a <= Rmax a b) by apply Rmax_l. assert (b <= Rmax a b) by apply Rmax_r. split; [lra|]. intros x [<-|Hx]; [lra|auto]. }
  assert (Hin : forall l a, In (fold_left Rmax l a) (a :: l)).
  { clear. induction l as [|b l IH]; simpl; intros a; auto. destruct (IH (Rmax a b)) as [H|H]; auto.
    rewrite <- H. destruct (Rmax_case_strong a b (fun y => y = a \/ y = b)); auto. }
  destruct (Hge l x) as [H1 H2]. split; auto. split; [inversion Hn; subst; lra|]. split.
  - intros k q Hk. assert (Hq : In q (vals p)) by (apply in_map_iff; exists (k, q); auto). rewrite E in Hq. destruct Hq as [<-|Hq]; auto.
  - assert (Hi := Hin l x). rewrite <- E in Hi. apply in_map_iff in Hi. destruct Hi as [[k q] [<- Hk]]. eauto.
Qed.

Lemma discrete_density p x : dict_ok p -> (exists k q, In (k, q) p /\ x = IZR k /\
    fold_left (fun acc kv => if Reqb x (IZR (fst kv)) then nlog (Fin (snd kv)) else acc) p NInf = nlog (Fin q) /\ 0 <= q) \/
  fold_left (fun acc kv => if Reqb x (IZR (fst kv)) then nlog (Fin (snd kv)) else acc) p NInf = NInf.
Proof.
  intros [_ Hn]. destruct (fold_ll_key p x NInf) as [H|(k & q & H1 & H2 & H3)]; auto. left. exists k, q. repeat split; auto.
  rewrite Forall_forall in Hn. apply Hn, in_map_iff. exists (k, q). auto.
Qed.

Lemma wexp_nlog q : 0 <= q -> lw_ok (nlog (Fin q)) /\ wexp (nlog (Fin q)) = q.
Proof. intros H. simpl. tot; simpl; try lra; split; auto. now apply exp_ln. Qed.

Lemma leaf_mode_exists eps d : dist_ok d -> cap_ok d -> mode_ok d ->
  exists A m, mode1 eps d = Some (A, m) /\ leaf_mode d A m.
Proof.
  intros Hok Hc Hm. destruct d as [v i|v l c|v mu s|v i mu s|v p|v p]; cbn [mode1].
  - do 2 eexists. split; [reflexivity|]. destruct Hok as (a & b & Ha & Hb & Hab).
    assert (E : exists z, nopp (nlog (nsub (hi i) (lo i))) = Fin z) by (rewrite Ha, Hb; simpl; tot; try lra; simpl; eauto).
    destruct E as [z Ez]. rewrite Ez. split; [exact I|]. split; [|split; [|split]].
    + constructor; auto. unfold sint_ok. rewrite Ha, Hb. simpl. repeat split; try discriminate. now left.
    + intros x. unfold density. cbn [ll1]. rewrite Ez. destruct (in_sint i x); simpl; [lra|left; apply exp_pos].
    + intros x Hx. cbn [in_evset in_interval existsb] in Hx. rewrite orb_false_r in Hx. unfold density. cbn [ll1]. rewrite Ez, Hx. reflexivity.
    + destruct (sint_ok_point i) as [x Hx]; [|exists x; simpl; now rewrite Hx].
      unfold sint_ok. rewrite Ha, Hb. simpl. repeat split; try discriminate. now left.
  - do 2 eexists. split; [reflexivity|]. destruct Hc as (c' & -> & Hc). destruct (wexp_nlog c') as [W1 W2]; [lra|]. apply point_mode; auto.
    + cbn [ll1]. destruct (Reqb_spec l l); congruence.
    + intros x. unfold density. cbn [ll1]. rewrite W2. destruct (Reqb x l); simpl; [|lra]. tot; simpl; try lra. rewrite exp_ln; lra.
  - do 2 eexists. split; [reflexivity|]. simpl in Hok. apply point_mode; auto.
    + destruct (gauss_logpdf_fin mu s mu Hok) as [y ->]. exact I.
    + intros x. destruct (gauss_log_mono mu s mu x) as (a & b & Ha & Hb & Hab); auto; [apply sq_zero_le|].
      unfold density. cbn [ll1]. rewrite Ha, Hb. simpl. destruct Hab as [H| ->]; [left; now apply exp_increasing|lra].
  - set (value := if in_sint i mu then Some mu else _).
    assert (Hmu : in_sint i mu = true -> value = Some mu) by (intros H; unfold value; now rewrite H).
    assert (Hv : exists z, value = Some z /\ in_sint i z = true /\ forall x, in_sint i x = true -> (z - mu) * (z - mu) <= (x - mu) * (x - mu)).
    { destruct Hok as (Hs & Hlo & Hhi & Hlt). destruct (in_sint i mu) eqn:Emu.
      - exists mu. split; auto. split; auto. intros x _. apply sq_zero_le.
      - destruct Hm as [Hm|[(a & Ea & Ha & Hcl)|(b & Eb & Hb & Hcl)]]; [congruence| |].
        + exists a. split; [|split].
          * unfold value. rewrite Ea, Hcl. destruct (Rltb_spec mu a); [auto|lra].
          * unfold in_sint, above, below. rewrite Ea, Hcl. rewrite Ea in Hlt. destruct (hi i); simpl in *; try tauto; destruct (rc i); rb; simpl; auto; lra.
          * intros x Hx. unfold in_sint, above in Hx. rewrite Ea, Hcl in Hx. apply andb_true_iff in Hx. destruct Hx as [Hx _]. rb; try discriminate. nra.
        + exists b. split; [|split].
          * unfold value. rewrite Eb, Hcl. rewrite Eb in Hlt. destruct (lo i) as [| |a|]; simpl in Hlt; try tauto. destruct (Rltb_spec mu a); [lra|auto].
          * unfold in_sint, above, below. rewrite Eb, Hcl. rewrite Eb in Hlt. destruct (lo i); simpl in *; try tauto; destruct (lc i); rb; simpl; auto; lra.
          * intros x Hx. unfold in_sint, below in Hx. rewrite Eb, Hcl in Hx. apply andb_true_iff in Hx. destruct Hx as [_ Hx]. rb; try discriminate. nra. }
    destruct Hv as (z & -> & Hz & Hmin). do 2 eexists. split; [reflexivity|].
    destruct (density_pos (DTGauss v i mu s) i z) as [E Hp]; simpl; auto. cbn [ll1] in E. rewrite Hz in E.
    apply point_mode; [cbn [ll1]; now rewrite Hz|rewrite E; exact I|].
    intros x. destruct (in_sint i x) eqn:Ex.
    + destruct (density_pos (DTGauss v i mu s) i x) as [E' Hp']; simpl; auto. cbn [ll1] in E'. rewrite Ex in E'.
      rewrite (density_wexp _ x) by (cbn [ll1]; rewrite Ex, E'; exact I). cbn [ll1]. rewrite Ex.
      destruct (gauss_log_mono mu s z x) as (a & b & Ha & Hb & Hab); [apply Hok|auto|]. rewrite Ha in E |- *. rewrite Hb in E' |- *.
      destruct (nlog (tg_const i mu s)); simpl in *; try discriminate.
      destruct Hab as [H| ->]; [left; apply exp_increasing; lra|lra].
    + unfold density. cbn [ll1]. rewrite Ex. simpl. apply wexp_nonneg.
  - destruct Hok as [Hd Hs]. destruct (dmax_spec p Hd Hs) as (m & -> & Hm0 & Hmax & k & Hk). do 2 eexists. split; [reflexivity|].
    destruct (wexp_nlog m Hm0) as [W1 W2]. split; [auto|split; [exact I|split; [|split]]].
    + intros x. rewrite W2. unfold density. cbn [ll1]. destruct (discrete_density p x Hd) as [(k' & q & H1 & -> & -> & Hq)| ->].
      * rewrite nexp_nlog; [|exact Hq]. eauto.
      * simpl. lra.
    + intros x Hx. cbn [in_evset] in Hx. apply existsb_exists in Hx. destruct Hx as [k' [Hk' Ek]]. destruct (Reqb_spec (IZR k') x); [subst x|discriminate].
      apply in_map_iff in Hk'. destruct Hk' as [[k2 q] [<- Hk']]. apply filter_In in Hk'. destruct Hk' as [Hk' Hq]. simpl in Hq.
      destruct (Reqb_spec q m); [subst q|discriminate]. simpl fst. unfold density. cbn [ll1]. rewrite (fold_ll_in p k2 m); auto; [|apply Hd].
      rewrite nexp_nlog by exact Hm0. auto.
    + exists (IZR k). cbn [in_evset]. apply existsb_exists. exists k. split; [|destruct (Reqb_spec (IZR k) (IZR k)); auto].
      apply in_map_iff. exists (k, m). split; auto. apply filter_In. split; auto. simpl. destruct (Reqb_spec m m); auto.
  - destruct Hok as [Hd Hs]. destruct (dmax_spec p Hd Hs) as (m & -> & Hm0 & Hmax & k & Hk). do 2 eexists. split; [reflexivity|].
    destruct (wexp_nlog m Hm0) as [W1 W2]. split; [auto|split; [|split; [|split]]].
    + apply Forall_map. apply Forall_forall. intros kv _. apply isingleton_ok.
    + intros x. rewrite W2. unfold density. cbn [ll1]. destruct (discrete_density p x Hd) as [(k' & q & H1 & -> & -> & Hq)| ->].
      * rewrite nexp_nlog; [|exact Hq]. eauto.
      * simpl. lra.
    + intros x Hx. cbn [in_evset] in Hx. apply existsb_exists in Hx. destruct Hx as [j [Hk' Ek]].
      apply in_map_iff in Hk'. destruct Hk' as [[k2 q] [<- Hk']]. apply filter_In in Hk'. destruct Hk' as [Hk' Hq]. simpl in Hq, Ek.
      assert (x = IZR k2) as -> by (apply in_isingleton; unfold in_interval; simpl; now rewrite Ek).
      destruct (Reqb_spec q m); [subst q|discriminate]. unfold density. cbn [ll1]. rewrite (fold_ll_in p k2 m); auto; [|apply Hd].
      rewrite nexp_nlog by exact Hm0. auto.
    + exists (IZR k). cbn [in_evset]. apply existsb_exists. exists (isingleton (IZR k)). split.
      * apply in_map_iff. exists (k, m). split; auto. apply filter_In. split; auto. simpl. destruct (Reqb_spec m m); auto.
      * assert (H := proj2 (in_isingleton (IZR k) (IZR k)) eq_refl). unfold in_interval in H. simpl in H. now rewrite orb_false_r in H.
Qed.

(** ** Modes of trees *)
Definition tmode (eps : R) (t : pc dist) : option (event * num) := tev (dist_log_mode eps) sum_log_mode prod_log_mode t.

Definition mode_spec (t : pc dist) (p : event * num) : Prop :=
  lw_ok (snd p) /\ event_good (fst p) /\ (forall x, likR t x <= wexp (snd p)) /\
  (forall x, in_event (fst p) x = true -> likR t x = wexp (snd p)).

Lemma lw_ok_nadd a b : lw_ok a -> lw_ok b -> lw_ok (nadd a b) /\ wexp (nadd a b) = wexp a * wexp b.
Proof. destruct a, b; simpl; try tauto; intros; split; auto; try ring. apply exp_plus. Qed.

Lemma flt_wexp a b : lw_ok a -> lw_ok b -> (flt a b = true <-> wexp a < wexp b).
Proof.
  destruct a as [| |a|], b as [| |b|]; simpl; try tauto; intros _ _; try (pose proof (exp_pos a)); try (pose proof (exp_pos b));
    try (split; intros; try discriminate; lra); try tauto.
  rb; split; intros H1; auto; try discriminate; [now apply exp_increasing|]. apply exp_lt_inv in H1. lra.
Qed.

Lemma feq_wexp a b : lw_ok a -> lw_ok b -> (feq a b = true <-> wexp a = wexp b).
Proof.
  destruct a as [| |a|], b as [| |b|]; simpl; try tauto; intros _ _; try (pose proof (exp_pos a)); try (pose proof (exp_pos b));
    try (split; intros; try discriminate; try lra; auto; fail).
  rb; split; intros H1; auto; try discriminate; [now subst|]. apply exp_inv in H1. lra.
Qed.

Lemma pymax_spec l : Forall lw_ok l -> l <> [] -> exists m, pymax l = Some m /\ In m l /\ forall a, In a l -> wexp a <= wexp m.
Proof.
  destruct l as [|a l]; [congruence|]. intros Hw _. inversion Hw; subst. eexists. split; [reflexivity|]. clear Hw.
  revert a H1. induction H2 as [|b l Hb Hl IH]; intros a Ha; cbn [fold_left]; [split; [now left|intros x [<-|[]]; lra]|].
  destruct (flt a b) eqn:E.
  - apply flt_wexp in E; auto. destruct (IH b Hb) as [I1 I2]. split; [right; auto|].
    intros x [<-|Hx]; [|auto]. assert (H := I2 b (or_introl eq_refl)). lra.
  - assert (Hn : wexp b <= wexp a). { apply Rnot_lt_le. intros H. apply flt_wexp in H; auto. congruence. }
    destruct (IH a Ha) as [I1 I2]. split; [destruct I1; simpl; auto|].
    intros x [<-|[<-|Hx]]; [apply I2; now left| |apply I2; now right]. assert (H := I2 a (or_introl eq_refl)). lra.
Qed.

Lemma Rsum_zero_or_pos l : Forall (fun x => 0 <= x) l -> Rsum l = 0 \/ exists k c, nth_error l k = Some c /\ 0 < c.
Proof.
  induction 1 as [|a l Ha Hl IH]; auto. destruct Ha as [Ha|Ha]; [right; exists O, a; auto|].
  destruct IH as [IH|(k & c & H1 & H2)]; [left; simpl; lra|right; exists (S k), c; auto].
Qed.

Lemma Rsum_unique l : Forall (fun x => 0 <= x) l ->
  (forall i j a b, i <> j -> nth_error l i = Some a -> nth_error l j = Some b -> ~ (0 < a /\ 0 < b)) ->
  forall k c, nth_error l k = Some c -> 0 < c -> Rsum l = c.
Proof.
  induction 1 as [|a l Ha Hl IH]; intros Hex [|k] c Hk Hc; simpl in *; try discriminate.
  - injection Hk as ->. destruct (Rsum_zero_or_pos l Hl) as [->|(k & c' & H1 & H2)]; [lra|].
    exfalso. apply (Hex 0%nat (S k) c c'); auto.
  - assert (a = 0) as ->. { destruct Ha as [Ha|Ha]; auto. exfalso. apply (Hex 0%nat (S k) a c); auto. }
    rewrite (IH (fun i j a b H => Hex (S i) (S j) a b (fun E => H (eq_add_S _ _ E))) k c Hk Hc). lra.
Qed.

(** One sum unit. *)
Lemma sum_mode_spec (l : list (num * pc dist)) (vs : list (num * (event * num))) : l <> [] ->
  Forall (fun wt => all_leaves dist_ok (snd wt) /\ all_leaves cap_ok (snd wt) /\ all_sums (Forall lw_ok) (snd wt)) l ->
  Forall lw_ok (map fst l) ->
  (forall i j a b x, i <> j -> nth_error l i = Some a -> nth_error l j = Some b -> ~ (positive (lik (snd a) x) /\ positive (lik (snd b) x))) ->
  Forall2 (fun wt v => fst v = fst wt /\ mode_spec (snd wt) (snd v)) l vs ->
  exists p, sum_log_mode vs = Some p /\ mode_spec (PSum l) p.
Proof.
  intros Hne Hl Hw Hex HF.
  assert (Hlw : Forall lw_ok (map (fun p => nadd (fst p) (snd (snd p))) vs)).
  { apply Forall_map. rewrite Forall_map in Hw. clear - HF Hw. induction HF as [|wt v l vs [H1 H2] HF IH]; constructor; inversion Hw; subst; auto.
    rewrite H1. apply lw_ok_nadd; auto. apply H2. }
  assert (Hvne : vs <> []) by (intros ->; inversion HF; subst; congruence).
  destruct (pymax_spec _ Hlw) as (m & Em & Hin & Hmax). { destruct vs; simpl; congruence. }
  unfold sum_log_mode. rewrite Em.
  assert (Hmw : lw_ok m) by (rewrite Forall_forall in Hlw; auto).
  set (sel := filter (fun p : num * (event * num) => feq (nadd (fst p) (snd (snd p))) m) vs).
  assert (Hsel : forall v, In v sel <-> In v vs /\ wexp (nadd (fst v) (snd (snd v))) = wexp m).
  { intros v. unfold sel. rewrite filter_In. split; intros [H1 H2]; split; auto.
    - apply feq_wexp in H2; auto. rewrite Forall_map, Forall_forall in Hlw. now apply Hlw.
    - apply feq_wexp; auto. rewrite Forall_map, Forall_forall in Hlw. now apply Hlw. }
  assert (Hselne : sel <> []).
  { apply in_map_iff in Hin. destruct Hin as [v [Ev Hv]]. intros E. assert (Hi : In v sel) by (apply Hsel; split; auto; now rewrite Ev).
    rewrite E in Hi. destruct Hi. }
  assert (Hgood : Forall event_good (map (fun p => fst (snd p)) sel)).
  { apply Forall_map, Forall_forall. intros v Hv. apply Hsel in Hv. destruct Hv as [Hv _]. clear - HF Hv.
    induction HF as [|wt v' l vs [_ H] HF IH]; [destruct Hv|]. destruct Hv as [->|Hv]; [apply H|auto]. }
  assert (Hnth : forall i wt, nth_error l i = Some wt -> exists v, nth_error vs i = Some v /\ fst v = fst wt /\ mode_spec (snd wt) (snd v)).
  { clear - HF. induction HF as [|wt v l vs H HF IH]; intros [|i] w Hi; simpl in *; try discriminate; auto. injection Hi as <-. eauto. }
  assert (Hnth' : forall i v, nth_error vs i = Some v -> exists wt, nth_error l i = Some wt /\ fst v = fst wt /\ mode_spec (snd wt) (snd v)).
  { clear - HF. induction HF as [|wt v l vs H HF IH]; intros [|i] w Hi; simpl in *; try discriminate; auto. injection Hi as <-. eauto. }
  assert (Hnn : forall x, Forall (fun y => 0 <= y) (map (fun wt => wexp (fst wt) * likR (snd wt) x) l)).
  { intros x. apply Forall_map. rewrite Forall_forall in *. intros wt Hi. apply Rmult_le_pos; [apply wexp_nonneg|]. apply likR_nonneg; apply Hl; auto. }
  assert (Huniq : forall x k c, nth_error (map (fun wt => wexp (fst wt) * likR (snd wt) x) l) k = Some c -> 0 < c -> likR (PSum l) x = c).
  { intros x. apply Rsum_unique; auto. intros i j a b Hij Ha Hb [Pa Pb].
    rewrite nth_error_map in Ha, Hb. destruct (nth_error l i) as [wa|] eqn:Ea; [|discriminate]. destruct (nth_error l j) as [wb|] eqn:Eb; [|discriminate].
    simpl in Ha, Hb. injection Ha as <-. injection Hb as <-. apply (Hex i j wa wb x); auto.
    assert (Ia := nth_error_In _ _ Ea). assert (Ib := nth_error_In _ _ Eb). rewrite Forall_forall in Hl.
    destruct (Hl _ Ia) as (A1 & A2 & A3). destruct (Hl _ Ib) as (B1 & B2 & B3). rewrite !lik_R by auto. simpl.
    assert (Na := likR_nonneg (snd wa) x A1 A2). assert (Nb := likR_nonneg (snd wb) x B1 B2).
    assert (Wa := wexp_nonneg (fst wa)). assert (Wb := wexp_nonneg (fst wb)). split; nra. }
  assert (Hub : forall x, likR (PSum l) x <= wexp m).
  { intros x. destruct (Rsum_zero_or_pos _ (Hnn x)) as [H0|(k & c & Hk & Hc)].
    - unfold likR at 1. cbn [semR]. change (Rsum (map (fun wt => wexp (fst wt) * likR (snd wt) x) l) <= wexp m). rewrite H0. apply wexp_nonneg.
    - rewrite (Huniq x k c Hk Hc). rewrite nth_error_map in Hk. destruct (nth_error l k) as [wt|] eqn:Ek; [|discriminate]. simpl in Hk. injection Hk as <-.
      destruct (Hnth k wt Ek) as (v & Hv & Hfst & (M1 & M2 & M3 & M4)). apply nth_error_In in Hv.
      assert (Hle := Hmax (nadd (fst v) (snd (snd v)))). rewrite in_map_iff in Hle. specialize (Hle (ex_intro _ v (conj eq_refl Hv))).
      assert (lw_ok (fst v)). { rewrite Hfst. rewrite Forall_map, Forall_forall in Hw. apply Hw. eapply nth_error_In; eauto. }
      destruct (lw_ok_nadd (fst v) (snd (snd v))) as [_ E]; auto. rewrite E in Hle. rewrite <- Hfst.
      assert (H4 := M3 x). assert (Wn := wexp_nonneg (fst v)). nra. }
  destruct (map (fun p => fst (snd p)) sel) as [|E Es] eqn:Esel.
  { apply map_eq_nil in Esel. congruence. }
  eexists. split; [reflexivity|]. split; [exact Hmw|]. cbn [fst snd]. inversion Hgood; subst. split; [now apply fold_union_good|]. split; [exact Hub|].
  intros x Hx. rewrite in_fold_union in Hx. change (existsb (fun F => in_event F x) (E :: Es) = true) in Hx. rewrite <- Esel in Hx.
  apply existsb_exists in Hx. destruct Hx as [F [HF' HFx]]. apply in_map_iff in HF'. destruct HF' as [v [<- Hv]].
  apply Hsel in Hv. destruct Hv as [Hv Ev]. apply In_nth_error in Hv. destruct Hv as [k Hk].
  destruct (Hnth' k v Hk) as (wt & Hwt & Hfst & (M1 & M2 & M3 & M4)). specialize (M4 x HFx).
  assert (lw_ok (fst v)). { rewrite Hfst. rewrite Forall_map, Forall_forall in Hw. apply Hw. eapply nth_error_In; eauto. }
  destruct (lw_ok_nadd (fst v) (snd (snd v))) as [_ E']; auto. rewrite E', <- M4, Hfst in Ev.
  destruct (wexp_nonneg m) as [Hpos|Hz].
  - rewrite <- Ev. apply (Huniq x k); [|lra]. rewrite nth_error_map, Hwt. reflexivity.
  - assert (Hubx := Hub x). assert (0 <= likR (PSum l) x); [|lra]. 
    apply likR_nonneg; cbn [all_leaves]; apply fold_and_Forall; eapply Forall_impl; [|exact Hl| |exact Hl]; simpl; tauto.
Qed.

Lemma prod_mode_spec (l : list (pc dist)) vs : l <> [] ->
  Forall (fun t => all_leaves dist_ok t /\ all_leaves cap_ok t) l -> Forall2 mode_spec l vs ->
  exists p, prod_log_mode vs = Some p /\ mode_spec (PProd l) p.
Proof.
  intros Hne Hl HF.
  assert (Hgood : Forall (fun v => event_good (fst v) /\ lw_ok (snd v)) vs).
  { clear - HF. induction HF as [|t v l vs (H1 & H2 & _) HF IH]; constructor; auto. }
  assert (Hub : forall x, Rprod (map (fun t => likR t x) l) <= Rprod (map (fun v => wexp (snd v)) vs)).
  { intros x. clear Hne Hgood. induction HF as [|t v l vs (H1 & H2 & H3 & H4) HF IH]; simpl; [lra|]. inversion Hl; subst.
    apply Rmult_le_compat; auto; [apply likR_nonneg; tauto|].
    clear - H6. induction l; simpl; [lra|]. inversion H6; subst. apply Rmult_le_pos; [apply likR_nonneg; tauto|auto]. }
  assert (Hat : forall x, forallb (fun v => in_event (fst v) x) vs = true -> Rprod (map (fun t => likR t x) l) = Rprod (map (fun v => wexp (snd v)) vs)).
  { intros x. clear Hne Hgood Hub Hl. induction HF as [|t v l vs (H1 & H2 & H3 & H4) HF IH]; simpl; auto. intros Hx. apply andb_true_iff in Hx.
    destruct Hx. rewrite IH, H4 by auto. reflexivity. }
  destruct vs as [|v vs]; [inversion HF; subst; congruence|]. eexists. split; [reflexivity|]. inversion Hgood as [|? ? [G1 G2] G3]; subst.
  assert (Hfold : forall vs m, lw_ok m -> Forall (fun v : event * num => event_good (fst v) /\ lw_ok (snd v)) vs ->
    lw_ok (fold_left nadd (map snd vs) m) /\ wexp (fold_left nadd (map snd vs) m) = wexp m * Rprod (map (fun v => wexp (snd v)) vs)).
  { clear. induction vs as [|v vs IH]; intros m Hm HF; simpl; [split; [auto|ring]|]. inversion HF as [|? ? [H1 H2] H3]; subst.
    destruct (lw_ok_nadd m (snd v)) as [L1 L2]; auto. destruct (IH _ L1 H3) as [I1 I2]. split; auto. rewrite I2, L2. ring. }
  destruct (Hfold vs (snd v) G2 G3) as [F1 F2]. split; [exact F1|]. cbn [fst snd].
  assert (Hg : Forall event_good (map fst vs)) by (apply Forall_map; eapply Forall_impl; [|exact G3]; simpl; tauto).
  split; [now apply fold_inter_good|]. rewrite F2. split.
  - exact Hub.
  - intros x Hx. rewrite in_fold_inter in Hx by auto. apply Hat. cbn [forallb]. apply andb_true_iff in Hx. destruct Hx as [Hx1 Hx2].
    rewrite Hx1. simpl. rewrite forallb_forall in *. intros w Hw. apply Hx2. now apply in_map.
Qed.

Lemma tmode_spec eps t : sums_nonempty t -> products_nonempty t -> all_leaves dist_ok t -> all_leaves cap_ok t -> all_leaves mode_ok t ->
  all_sums (Forall lw_ok) t -> exclusive t -> exists p, tmode eps t = Some p /\ mode_spec t p.
Proof.
  unfold tmode. induction t as [d|l IH|l IH] using pc_ind'; cbn [sums_nonempty products_nonempty all_leaves all_sums exclusive]; rewrite ?Forall_map_id, ?fold_and_Forall.
  - intros _ _ Hok Hc Hm _ _. destruct (leaf_mode_exists eps d Hok Hc Hm) as (A & m & H1 & (L1 & L2 & L3 & L4 & L5)).
    exists (leaf_event (dvar d) A, m). cbn [tev]. unfold dist_log_mode. rewrite H1. split; auto. split; [auto|]. split.
    + constructor; auto. split; [discriminate|]. constructor; auto.
    + split; [intros x; apply L3|]. intros x Hx. cbn [fst] in Hx. rewrite in_leaf_event in Hx. now apply L4.
  - intros [Hne Hs] Hp Hok Hc Hm [Hw Hws] [Hex Hexs].
    assert (H : exists vs, mapM (fun wt => match tev (dist_log_mode eps) sum_log_mode prod_log_mode (snd wt) with Some v => Some (fst wt, v) | None => None end) l = Some vs /\
      Forall2 (fun wt v => fst v = fst wt /\ mode_spec (snd wt) (snd v)) l vs).
    { clear Hne Hex Hw. induction IH as [|[w t] l H _ IHl]; [exists []; split; constructor|].
      inversion Hs; subst. inversion Hp; subst. inversion Hok; subst. inversion Hc; subst. inversion Hm; subst. inversion Hws; subst. inversion Hexs; subst.
      simpl in *. destruct H as (p & P1 & P2); auto. destruct IHl as (vs & V1 & V2); auto.
      exists ((w, p) :: vs). rewrite P1, V1. split; auto. }
    destruct H as (vs & H1 & H2). cbn [tev]. rewrite H1. apply sum_mode_spec; auto. rewrite Forall_forall in *. auto.
  - intros Hs [Hne Hp] Hok Hc Hm Hws Hexs.
    assert (H : exists vs, mapM (tev (dist_log_mode eps) sum_log_mode prod_log_mode) l = Some vs /\ Forall2 mode_spec l vs).
    { clear Hne. induction IH as [|t l H _ IHl]; [exists []; split; constructor|].
      inversion Hs; subst. inversion Hp; subst. inversion Hok; subst. inversion Hc; subst. inversion Hm; subst. inversion Hws; subst. inversion Hexs; subst.
      destruct H as (p & P1 & P2); auto. destruct IHl as (vs & V1 & V2); auto.
      exists (p :: vs). simpl. rewrite P1, V1. split; auto. }
    destruct H as (vs & H1 & H2). cbn [tev]. rewrite H1. apply prod_mode_spec; auto. rewrite Forall_forall in *. auto.
Qed.

(** ** The returned event is not empty *)
Fixpoint tvars (t : pc dist) : list nat :=
  match t with
  | PLeaf d => dist_vars d
  | PSum l => flat_map (fun wt => tvars (snd wt)) l
  | PProd l => flat_map tvars l
  end.

Lemma tvars_mentions t v : In v (tvars t) <-> mentions dist_vars t v.
Proof.
  induction t as [d|l IH|l IH] using pc_ind'; cbn [tvars mentions]; [tauto| |]; rewrite fold_or_Exists, Exists_exists, in_flat_map; rewrite Forall_forall in IH.
  - split; intros (wt & H1 & H2); exists wt; split; auto; now apply IH.
  - split; intros (t & H1 & H2); exists t; split; auto; now apply IH.
Qed.

Definition local_event (t : pc dist) (E : event) : Prop :=
  (forall x y : nat -> R, (forall v, mentions dist_vars t v -> x v = y v) -> in_event E x = in_event E y) /\ exists x, in_event E x = true.

Lemma locals_point (l : list (pc dist)) Es : pairwise_disjoint (map (fun t => mentions dist_vars t) l) -> Forall2 local_event l Es ->
  exists x, forallb (fun E => in_event E x) Es = true.
Proof.
  intros Hd HF. induction HF as [|t E l Es [H1 [x Hx]] HF IH]; [exists (fun _ => 0); reflexivity|].
  cbn [map pairwise_disjoint] in Hd. destruct Hd as [Hd Hds]. destruct (IH Hds) as [y Hy].
  rewrite map_map, fold_and_Forall in Hd.
  exists (fun v => if in_dec Nat.eq_dec v (tvars t) then x v else y v). cbn [forallb]. apply andb_true_iff. split.
  - rewrite <- Hx. apply H1. intros v Hv. destruct (in_dec Nat.eq_dec v (tvars t)) as [_|n]; auto. exfalso. apply n. now apply tvars_mentions.
  - rewrite forallb_forall in *. intros F HF'. rewrite <- (Hy F HF'). clear - HF HF' Hd.
    induction HF as [|t' E' l Es [G1 _] HF IH]; [destruct HF'|]. inversion Hd; subst. destruct HF' as [->|HF']; auto.
    apply G1. intros v Hv. destruct (in_dec Nat.eq_dec v (tvars t)) as [i|]; auto. exfalso. apply (H1 v). split; auto. now apply tvars_mentions.
Qed.

Lemma tmode_local eps t : sums_nonempty t -> products_nonempty t -> all_leaves dist_ok t -> all_leaves cap_ok t -> all_leaves mode_ok t ->
  all_sums (Forall lw_ok) t -> exclusive t -> decomposable dist_vars t -> forall p, tmode eps t = Some p -> local_event t (fst p).
Proof.
  induction t as [d|l IH|l IH] using pc_ind'; cbn [sums_nonempty products_nonempty all_leaves all_sums exclusive decomposable]; rewrite ?Forall_map_id, ?fold_and_Forall.
  - intros _ _ Hok Hc Hm _ _ _ p Hp. destruct (leaf_mode_exists eps d Hok Hc Hm) as (A & m & H1 & (L1 & L2 & L3 & L4 & L5)).
    unfold tmode in Hp. cbn [tev] in Hp. unfold dist_log_mode in Hp. rewrite H1 in Hp. injection Hp as <-. split.
    + intros x y Hxy. cbn [fst]. rewrite !in_leaf_event. rewrite (Hxy (dvar d)); auto. simpl. auto.
    + destruct L5 as [x Hx]. exists (fun _ => x). cbn [fst]. now rewrite in_leaf_event.
  - intros [Hne Hs] Hp Hok Hc Hm [Hw Hws] [Hex Hexs] Hd p Htp. unfold tmode in Htp. cbn [tev] in Htp.
    destruct (mapM _ l) as [vs|] eqn:Em; [|discriminate]. apply mapM_Forall2 in Em.
    assert (HL : Forall (fun v => local_event (PSum l) (fst (snd v))) vs).
    { apply Forall_forall. intros v Hv.
      assert (H : exists wt, In wt l /\ tmode eps (snd wt) = Some (snd v)).
      { clear - Em Hv. induction Em as [|wt v' l vs H Em IH]; [destruct Hv|]. destruct Hv as [->|Hv].
        - exists wt. split; [now left|]. unfold tmode. destruct (tev _ _ _ (snd wt)); [|discriminate]. now injection H as <-.
        - destruct (IH Hv) as (wt' & H1 & H2). exists wt'. split; [now right|auto]. }
      destruct H as (wt & H1 & H2). rewrite Forall_forall in *. destruct (IH wt H1) with (p := snd v) as [I1 I2]; auto. split; auto.
      intros x y Hxy. apply I1. intros w Hw'. apply Hxy. cbn [mentions]. apply fold_or_Exists, Exists_exists. eauto. }
    unfold sum_log_mode in Htp. destruct (pymax _) as [m|]; [|discriminate].
    destruct (map (fun p => fst (snd p)) (filter _ vs)) as [|E Es] eqn:Esel; [discriminate|]. injection Htp as <-. cbn [fst].
    assert (HL' : Forall (local_event (PSum l)) (E :: Es)).
    { rewrite <- Esel. apply Forall_map. rewrite Forall_forall in *. intros v Hv. apply filter_In in Hv. apply HL. tauto. }
    inversion HL' as [|? ? [E1 [x0 E2]] HE]; subst. split.
    + intros x y Hxy. rewrite !in_fold_union. rewrite (E1 x y Hxy). f_equal. clear - HE Hxy. induction HE as [|F Es [H _] HE IH]; simpl; auto.
      rewrite IH, (H x y Hxy). reflexivity.
    + exists x0. rewrite in_fold_union, E2. reflexivity.
  - intros Hs [Hne Hp] Hok Hc Hm Hws Hexs [Hpd Hd] p Htp. unfold tmode in Htp. cbn [tev] in Htp.
    destruct (mapM _ l) as [vs|] eqn:Em; [|discriminate]. apply mapM_Forall2 in Em.
    assert (HL : Forall2 (fun t v => local_event t (fst v) /\ event_good (fst v)) l vs).
    { clear Hne Hpd Htp. induction Em as [|t v l vs H Em IHm]; constructor;
        inversion Hs; subst; inversion Hp; subst; inversion Hok; subst; inversion Hc; subst; inversion Hm; subst; inversion Hws; subst; inversion Hexs; subst;
        inversion Hd; subst; inversion IH; subst; auto.
      split; auto. destruct (tmode_spec eps t) as (p' & P1 & P2); auto. unfold tmode in P1. rewrite H in P1. injection P1 as <-. apply P2. }
    destruct vs as [|v vs]; [discriminate|]. injection Htp as <-. cbn [fst].
    assert (HG : Forall event_good (map fst (v :: vs))).
    { apply Forall_map. clear - HL. induction HL; constructor; auto. tauto. }
    cbn [map] in HG. inversion HG; subst. split.
    + intros x y Hxy. rewrite !in_fold_inter by auto. change (forallb (fun F => in_event F x) (map fst (v :: vs)) = forallb (fun F => in_event F y) (map fst (v :: vs))).
      assert (Hxy' : Forall (fun t => forall w, mentions dist_vars t w -> x w = y w) l).
      { apply Forall_forall. intros t Ht w Hw. apply Hxy. cbn [mentions]. apply fold_or_Exists, Exists_exists. eauto. }
      clear - HL Hxy'. induction HL as [|t v' l vs' [[H _] _] HL IH]; simpl; auto. inversion Hxy'; subst. rewrite IH by auto. now rewrite (H x y).
    + destruct (locals_point l (map fst (v :: vs))) as [x Hx]; auto.
      { clear - HL. induction HL as [|? ? ? ? [H _]]; constructor; auto. }
      exists x. rewrite in_fold_inter by auto. exact Hx.
Qed.
