(** * L1Main: what [l1] computes for mixtures of uniform boxes *)
From Coq Require Import List Arith Bool Lia Reals Lra ZArith Sorting.Sorted.
From Verif Require Import Num Graph GraphFacts Spec SpecFacts Circuit EvalFacts VarFacts Interval GaussInt Dist DistFacts TreeProb TreeLocal LeafCond
  Support SupportFacts ModeFacts PropertiesProb PropertiesSupport PropertiesSimplify L1 L1Events L1Sub L1Step.
Import ListNotations.
Local Set Bullet Behavior "Strict Subproofs".
Local Open Scope R_scope.

(** ** Supports *)
Definition cbox (c : comp) : box := map (fun d => (dvar d, EInt [side d])) (snd c).

Lemma constrain_new v A b : ~ In v (map fst b) -> constrain v A b = b ++ [(v, A)].
Proof.
  induction b as [|[w B] b IH]; intros H; [reflexivity|]. cbn [constrain]. cbn [map fst In] in H. destruct (Nat.eqb_spec w v) as [->|_]; [tauto|].
  cbn [app]. f_equal. apply IH. tauto.
Qed.

Lemma cbox_keys c : map fst (cbox c) = map dvar (snd c).
Proof. unfold cbox. now rewrite map_map. Qed.

Lemma cbox_real vs c : comp_ok vs c -> real_box vs (cbox c).
Proof.
  intros (_ & Hd & Nd & Hv). unfold real_box. rewrite cbox_keys. split; [exact Nd|]. split; [exact Hv|]. apply Forall_map. eapply Forall_impl; [|exact Hd].
  intros d [H1 H2]. cbn [snd]. exists [side d]. split; [reflexivity|]. split; [constructor; [now apply side_ok|constructor]|cbn; tauto].
Qed.

Lemma in_cbox c x : in_box (cbox c) x = in_comp c x.
Proof.
  unfold in_box, cbox, in_comp. induction (snd c) as [|d l IH]; [reflexivity|]. cbn [map forallb fst snd]. rewrite IH. f_equal. cbn. apply orb_false_r.
Qed.

Lemma cbox_solid c : snd c <> [] -> box_empty (cbox c) = false.
Proof.
  unfold box_empty, cbox. destruct (snd c) as [|d l]; [congruence|]. intros _. cbn [map existsb snd evset_empty orb].
  induction l as [|d' l IH]; [reflexivity|]. exact IH.
Qed.

Lemma fold_boxes l : forall b, b <> [] -> existsb (fun vA => evset_empty (snd vA)) b = false -> NoDup (map fst b ++ map dvar l) ->
  fold_left event_inter (map (fun d => leaf_event (dvar d) (EInt [side d])) l) [b] = [b ++ map (fun d => (dvar d, EInt [side d])) l].
Proof.
  induction l as [|d l IH]; intros b Hb He Nd; [cbn; now rewrite app_nil_r|]. cbn [map fold_left].
  assert (Hv : ~ In (dvar d) (map fst b)) by (intros H; cbn [map] in Nd; apply NoDup_remove_2 in Nd; apply Nd; apply in_app_iff; now left).
  assert (E : event_inter [b] (leaf_event (dvar d) (EInt [side d])) = [b ++ [(dvar d, EInt [side d])]]).
  { unfold event_inter, leaf_event. cbn [flat_map map app]. unfold box_inter. cbn [fold_left fst snd]. rewrite constrain_new by auto. cbn [filter].
    assert (Eb : box_empty (b ++ [(dvar d, EInt [side d])]) = false).
    { unfold box_empty. destruct b as [|p b]; [congruence|]. cbn [app]. change (p :: b ++ [(dvar d, EInt [side d])]) with ((p :: b) ++ [(dvar d, EInt [side d])]).
      rewrite existsb_app, He. reflexivity. }
    now rewrite Eb. }
  rewrite E, IH.
  - now rewrite <- app_assoc.
  - intros H. now apply app_eq_nil in H as [_ H].
  - rewrite existsb_app, He. reflexivity.
  - rewrite map_app. cbn [map fst]. rewrite <- app_assoc. exact Nd.
Qed.

Lemma mapM_leaves (l : list dist) : mapM (tev dist_support sum_support prod_support) (map PLeaf l) = Some (map (fun d => leaf_event (dvar d) (support1 d)) l).
Proof. induction l as [|d l IH]; [reflexivity|]. cbn [map mapM]. cbn [tev]. unfold dist_support at 1. now rewrite IH. Qed.

Lemma product_support vs c : comp_ok vs c -> vs <> [] -> tsupp (product c) = Some [cbox c].
Proof.
  intros (_ & Hd & Nd & Hv) Hne. unfold tsupp, product. cbn [tev]. rewrite mapM_leaves. unfold cbox.
  assert (Hs : map (fun d => leaf_event (dvar d) (support1 d)) (snd c) = map (fun d => leaf_event (dvar d) (EInt [side d])) (snd c)).
  { apply map_ext_in. intros d Hin. rewrite Forall_forall in Hd. destruct (Hd d Hin) as [_ (v & i & ->)]. reflexivity. }
  rewrite Hs. destruct (snd c) as [|d l].
  - exfalso. destruct vs as [|v vs]; [congruence|]. destruct (proj2 (Hv v) (or_introl eq_refl)).
  - cbn [map prod_support]. f_equal. apply (fold_boxes l [(dvar d, EInt [side d])]); [discriminate|reflexivity|exact Nd].
Qed.

Lemma fold_union_app l : forall E, fold_left event_union l E = E ++ concat l.
Proof. induction l as [|F l IH]; intros E; cbn; [now rewrite app_nil_r|]. rewrite IH. unfold event_union. now rewrite app_assoc. Qed.

Lemma mixture_support vs cs : Forall (comp_ok vs) cs -> vs <> [] -> cs <> [] -> tsupp (mixture cs) = Some (map cbox cs).
Proof.
  intros Hc Hv Hne. unfold tsupp, mixture. cbn [tev].
  assert (E : mapM (fun wt : num * pc dist => match tev dist_support sum_support prod_support (snd wt) with Some v => Some (fst wt, v) | None => None end)
      (map (fun c => (fst c, product c)) cs) = Some (map (fun c => (fst c, [cbox c])) cs)).
  { clear Hne. induction Hc as [|c cs Hc _ IH]; [reflexivity|]. cbn [map mapM fst snd]. pose proof (product_support vs c Hc Hv) as H. unfold tsupp in H. rewrite H. now rewrite IH. }
  rewrite E. destruct cs as [|c cs]; [congruence|]. cbn [map sum_support snd]. f_equal. rewrite fold_union_app, map_map. cbn [snd app]. f_equal.
  clear. induction cs as [|c cs IH]; [reflexivity|]. cbn. now rewrite IH.
Qed.

Lemma support_layered se g t E : layered_circuit g t -> tsupp t = Some E -> support se g = Some E.
Proof.
  intros (Hwf & Hlt & r & Hr & Hg & Hu) HE. destruct (circuit_support_correct g r t se E) as (st' & H & _); auto. unfold support. now rewrite H.
Qed.

(** ** The mixture at a point *)
Section Mixture.
Variables (vs : list nat) (cs : list comp).
Hypothesis Hvs : vs <> [].
Hypothesis Hc : Forall (comp_ok vs) cs.
Hypothesis Hne : cs <> [].

Lemma mixture_leaves (P : dist -> Prop) : (forall d, dist_ok d -> uniform d -> P d) -> all_leaves P (mixture cs).
Proof.
  intros HP. unfold mixture. cbn [all_leaves]. rewrite fold_and_Forall, !map_map || rewrite fold_and_Forall. apply Forall_map. apply Forall_forall.
  intros c Hin. cbn [snd]. unfold product. cbn [all_leaves]. rewrite fold_and_Forall. apply Forall_map. apply Forall_forall. intros d Hd. cbn [all_leaves].
  rewrite Forall_forall in Hc. destruct (Hc c Hin) as (_ & H & _). rewrite Forall_forall in H. destruct (H d Hd). auto.
Qed.

Lemma mixture_sums : all_sums (Forall lw_ok) (mixture cs).
Proof.
  unfold mixture. cbn [all_sums]. rewrite fold_and_Forall. split.
  - rewrite map_map. apply Forall_map. eapply Forall_impl; [|exact Hc]. intros c H. apply H.
  - apply Forall_map. apply Forall_forall. intros c _. cbn [snd]. unfold product. cbn [all_sums]. rewrite fold_and_Forall. apply Forall_map. apply Forall_forall. intros d _. exact Logic.I.
Qed.

Lemma mentions_product c v : comp_ok vs c -> (mentions dist_vars (product c) v <-> In v vs).
Proof.
  intros (_ & _ & _ & H). rewrite <- H. unfold product. cbn [mentions]. rewrite fold_or_Exists, Exists_exists, in_map_iff. split.
  - intros (t & Ht & Hm). apply in_map_iff in Ht as (d & <- & Hd). cbn in Hm. destruct Hm as [<-|[]]. eauto.
  - intros (d & <- & Hd). exists (PLeaf d). split; [now apply in_map|]. cbn. auto.
Qed.

Lemma mentions_mixture v : mentions dist_vars (mixture cs) v <-> In v vs.
Proof.
  unfold mixture. cbn [mentions]. rewrite fold_or_Exists, Exists_exists. rewrite Forall_forall in Hc. split.
  - intros (wt & Hw & Hm). apply in_map_iff in Hw as (c & <- & Hin). cbn [snd] in Hm. now apply (mentions_product c) in Hm; auto.
  - intros Hv. destruct cs as [|c l]; [congruence|]. exists (fst c, product c). split; [now left|]. cbn [snd]. apply mentions_product; [apply Hc; now left|exact Hv].
Qed.

Lemma mixture_smooth : smooth dist_vars (mixture cs).
Proof.
  split.
  - intros v Hv. apply mentions_mixture in Hv. rewrite fold_and_Forall. apply Forall_map. rewrite Forall_forall in *. intros c Hin. cbn [snd].
    now apply mentions_product; auto.
  - rewrite fold_and_Forall. apply Forall_map. apply Forall_forall. intros c _. cbn [snd]. unfold product. cbn [smooth]. rewrite fold_and_Forall.
    apply Forall_map. apply Forall_forall. intros d _. exact Logic.I.
Qed.

Lemma mixture_lik x : lik (mixture cs) x = Fin (height_at cs x).
Proof.
  rewrite lik_R.
  - now rewrite (mixture_density vs).
  - apply mixture_leaves. auto.
  - apply mixture_leaves. intros d _ (v & i & ->). exact Logic.I.
  - apply mixture_sums.
Qed.

Lemma positive_component c x : In c cs -> in_comp c x = true -> positive (lik (product c) x).
Proof.
  intros Hin Hx. rewrite Forall_forall in Hc. specialize (Hc c Hin). rewrite lik_R.
  - unfold likR. rewrite (product_density vs) by auto. rewrite Hx. cbn. pose proof (volume_pos vs c Hc). unfold Rdiv. rewrite Rmult_1_l. now apply Rinv_0_lt_compat.
  - unfold product. cbn [all_leaves]. rewrite fold_and_Forall. apply Forall_map. destruct Hc as (_ & H & _). eapply Forall_impl; [|exact H]. intros d [H1 _]. exact H1.
  - unfold product. cbn [all_leaves]. rewrite fold_and_Forall. apply Forall_map. destruct Hc as (_ & H & _). eapply Forall_impl; [|exact H]. intros d [_ (v & i & ->)]. exact Logic.I.
  - unfold product. cbn [all_sums]. rewrite fold_and_Forall. apply Forall_map. apply Forall_forall. intros d _. exact Logic.I.
Qed.

(** With exclusive components the density is the height of the one component at the point. *)
Hypothesis Hex : exclusive (mixture cs).

Lemma one_component i j a b x : i <> j -> nth_error cs i = Some a -> nth_error cs j = Some b -> ~ (in_comp a x = true /\ in_comp b x = true).
Proof.
  intros Hij Ha Hb [Xa Xb]. destruct Hex as [H _]. apply (H i j (fst a, product a) (fst b, product b) x Hij).
  - exact (map_nth_error (fun c => (fst c, product c)) i cs Ha).
  - exact (map_nth_error (fun c => (fst c, product c)) j cs Hb).
  - cbn [snd]. split; apply positive_component; auto; eapply nth_error_In; eauto.
Qed.

Lemma height_inside c x : In c cs -> in_comp c x = true -> height_at cs x = hgt c.
Proof.
  intros Hin Hx. apply In_nth_error in Hin as (k & Hk). pose proof one_component as H1. clear Hex Hne.
  unfold height_at. revert k Hk H1. clear Hc. induction cs as [|a l IH]; intros k Hk H1; [destruct k; discriminate|]. cbn [map Rsum fold_right].
  change (hgt a * ind (in_comp a x) + Rsum (map (fun c => hgt c * ind (in_comp c x)) l) = hgt c). destruct k as [|k].
  - injection Hk as ->. rewrite Hx. rewrite Rsum_zero; [cbn; ring|]. intros b Hb. apply In_nth_error in Hb as (j & Hj).
    destruct (in_comp b x) eqn:E; [|cbn; ring]. exfalso. apply (H1 0%nat (S j) c b x); auto.
  - destruct (in_comp a x) eqn:E; [exfalso; apply (H1 0%nat (S k) a c x); auto|]. rewrite (IH k Hk); [cbn; ring|].
    intros i j u w y Hij Hu Hw. apply (H1 (S i) (S j) u w y); auto.
Qed.

Lemma height_outside x : (forall c, In c cs -> in_comp c x = false) -> height_at cs x = 0.
Proof. intros H. unfold height_at. apply Rsum_zero. intros c Hin. rewrite H by auto. cbn. ring. Qed.

Lemma count_inside c x : In c cs -> in_comp c x = true -> 1 <= Rsum (map (fun c => ind (in_comp c x)) cs).
Proof.
  intros Hin Hx. clear -Hin Hx. induction cs as [|a l IH]; [destruct Hin|]. cbn [map]. rewrite UniformStar.Rsum_cons.
  assert (0 <= Rsum (map (fun c => ind (in_comp c x)) l)) by (apply Rsum_nonneg, Forall_map, Forall_forall; intros; apply ind_nonneg).
  destruct Hin as [->|Hin]; [rewrite Hx; cbn [ind]; lra|]. specialize (IH Hin). pose proof (ind_nonneg (in_comp a x)). lra.
Qed.
End Mixture.

(** ** The centre of an intersection *)
Lemma center_in k a b : sint_ok k -> lo k = Fin a -> hi k = Fin b -> in_sint k ((a + b) / 2) = true.
Proof.
  intros (_ & _ & _ & _ & H) Ea Eb. unfold in_sint, above, below. rewrite Ea, Eb in *. destruct H as [H|(c & E1 & E2 & -> & ->)].
  - cbn in H. destruct (lc k), (rc k); rb; cbn; auto; lra.
  - injection E1 as ->. injection E2 as ->. rb; cbn; auto; lra.
Qed.

Lemma inter_bounded i j a b c d : lo i = Fin a -> hi i = Fin b -> lo j = Fin c -> hi j = Fin d ->
  exists l h, lo (sint_inter i j) = Fin l /\ hi (sint_inter i j) = Fin h.
Proof.
  intros E1 E2 E3 E4. unfold sint_inter, nmax_lo, nmin_hi. rewrite E1, E2, E3, E4. cbn [lo hi].
  destruct (Rltb a c), (Rltb c a), (Rltb b d), (Rltb d b); cbn; eauto.
Qed.

Definition mid (A : evset) : R := match center A with Some x => x | None => 0 end.

(** Box of the intersection of two components. *)
Lemma inter_entry vs c d v : comp_ok vs c -> comp_ok vs d -> In v vs -> assign (box_inter (cbox c) (cbox d)) v = EInt (interval_inter [cside c v] [cside d v]).
Proof.
  intros Hcc Hd Hv.
  assert (K : forall (b : box) a, NoDup (map fst b) -> NoDup (map fst a) -> (forall w, In w (map fst b) -> In w (map fst a)) ->
    assign (fold_left (fun acc vA => constrain (fst vA) (snd vA) acc) b a) v = match box_get b v with None => assign a v | Some B => match box_get a v with None => EInt [ireals] | Some A => evset_inter A B end end).
  { induction b as [|[w B] b IH]; intros a Nb Na Hk; [reflexivity|]. cbn [fold_left fst snd]. inversion Nb as [|? ? N1 N2]; subst.
    assert (Hw : In w (map fst a)) by (apply Hk; now left).
    rewrite IH; [|exact N2|now rewrite constrain_keys|intros u Hu; rewrite constrain_keys by auto; apply Hk; now right].
    assert (G : forall u, box_get (constrain w B a) u = if (u =? w)%nat then match box_get a u with None => None | Some A => Some (evset_inter A B) end else box_get a u).
    { clear -Na Hw. induction a as [|[y A] a IH]; [destruct Hw|]. intros u. inversion Na as [|? ? N1 N2]; subst. cbn [constrain]. unfold box_get in *. destruct (Nat.eqb_spec y w) as [->|N].
      - cbn [find fst]. destruct (Nat.eqb_spec w u) as [->|]; [rewrite Nat.eqb_refl; reflexivity|]. destruct (Nat.eqb_spec u w); [congruence|reflexivity].
      - cbn [find fst]. destruct (Nat.eqb_spec y u) as [->|]; [destruct (Nat.eqb_spec u w); [congruence|reflexivity]|]. apply IH; [exact N2|]. destruct Hw as [Hw|Hw]; [cbn in Hw; congruence|exact Hw]. }
    assert (Gc : box_get ((w, B) :: b) v = if (w =? v)%nat then Some B else box_get b v) by (unfold box_get; cbn [find fst snd]; destruct (w =? v)%nat; reflexivity).
    unfold assign. rewrite !G, Gc. destruct (Nat.eqb_spec v w) as [->|N].
    - rewrite Nat.eqb_refl. assert (E : box_get b w = None).
      { destruct (box_get b w) as [A|] eqn:E; [|reflexivity]. apply box_get_some in E. exfalso. apply N1. now apply (in_map fst) in E. }
      rewrite E. destruct (box_get a w); reflexivity.
    - destruct (Nat.eqb_spec w v); [congruence|]. reflexivity. }
  unfold box_inter. destruct (cbox_real vs c Hcc) as (N1 & K1 & _). destruct (cbox_real vs d Hd) as (N2 & K2 & _).
  rewrite K; [|exact N2|exact N1|intros w Hw; apply K1; now apply K2].
  assert (G : forall e, comp_ok vs e -> box_get (cbox e) v = Some (EInt [cside e v])).
  { intros e He. pose proof (cbox_real vs e He) as (Ne & _). destruct He as (_ & _ & Nde & Hve). apply Hve in Hv. apply in_map_iff in Hv as (l & <- & Hl).
    apply box_get_In; [exact Ne|]. rewrite cside_leaf by auto. unfold cbox. apply in_map_iff. eauto. }
  rewrite !G by auto. reflexivity.
Qed.

Lemma box_inter_real vs c d : comp_ok vs c -> comp_ok vs d -> real_box vs (box_inter (cbox c) (cbox d)).
Proof.
  intros Hcc Hd. unfold box_inter. pose proof (cbox_real vs c Hcc) as Ha. pose proof (cbox_real vs d Hd) as (_ & K2 & Hr).
  assert (Hb : forall vA, In vA (cbox d) -> In (fst vA) vs /\ real_set (snd vA)).
  { intros vA H. rewrite Forall_forall in Hr. split; [apply K2; now apply in_map|now apply Hr]. }
  clear Hr K2. revert Ha Hb. generalize (cbox c) as a. induction (cbox d) as [|vA b IH]; intros a Ha Hb; [exact Ha|]. cbn [fold_left]. apply IH.
  - destruct (Hb vA (or_introl eq_refl)). now apply constrain_real.
  - intros w Hw. apply Hb. now right.
Qed.

Lemma center_row_spec vs c d : comp_ok vs c -> comp_ok vs d -> box_empty (box_inter (cbox c) (cbox d)) = false ->
  exists x, center_row (box_inter (cbox c) (cbox d)) = Some (map x (sset_of vs)) /\ in_comp c x = true /\ in_comp d x = true /\
    forall v, In v vs -> x v = mid (EInt (interval_inter [cside c v] [cside d v])).
Proof.
  intros Hcc Hd He. set (b := box_inter (cbox c) (cbox d)) in *. pose proof (box_inter_real vs c d Hcc Hd) as Hb. fold b in Hb.
  set (x := fun v => mid (assign b v)). exists x.
  assert (P : forall v, In v vs -> exists k l h, assign b v = EInt [k] /\ sint_ok k /\ lo k = Fin l /\ hi k = Fin h /\ in_sint (cside c v) (x v) = true /\ in_sint (cside d v) (x v) = true).
  { intros v Hv. pose proof (inter_entry vs c d v Hcc Hd Hv) as E. fold b in E. pose proof (assign_nonempty vs b v _ Hb He Hv E) as Hne.
    pose proof (cside_ok vs c v Hcc Hv) as Oc. pose proof (cside_ok vs d v Hd Hv) as Od.
    assert (B : forall e, comp_ok vs e -> exists l h, lo (cside e v) = Fin l /\ hi (cside e v) = Fin h).
    { intros e (_ & Hl & Nd & Hve). pose proof Hv as Hv'. apply Hve in Hv'. apply in_map_iff in Hv' as (l & <- & Hin). rewrite cside_leaf by auto. rewrite Forall_forall in Hl.
      destruct (Hl l Hin) as [H1 H2]. destruct (uniform_side l H1 H2) as (w & i & a & a' & _ & E1 & E2 & _ & -> & _). eauto. }
    destruct (B c Hcc) as (l1 & h1 & A1 & A2). destruct (B d Hd) as (l2 & h2 & A3 & A4).
    destruct (inter_bounded _ _ _ _ _ _ A1 A2 A3 A4) as (l & h & E1 & E2).
    unfold interval_inter in Hne, E. cbn [flat_map map app filter] in Hne, E. destruct (sint_empty (sint_inter (cside c v) (cside d v))) eqn:Es; cbn [negb] in Hne, E; [congruence|].
    pose proof (sint_inter_ok _ _ Oc Od Es) as Ok. exists (sint_inter (cside c v) (cside d v)), l, h.
    split; [exact E|]. split; [exact Ok|]. split; [exact E1|]. split; [exact E2|].
    pose proof (center_in _ l h Ok E1 E2) as Ci. assert (Ex : x v = (l + h) / 2) by (unfold x, mid; rewrite E; cbn [center]; now rewrite E1, E2).
    rewrite Ex. rewrite sint_inter_points in Ci by auto. now apply andb_true_iff in Ci. }
  split; [|split; [|split; [|intros v Hv; unfold x; now rewrite <- (inter_entry vs c d v Hcc Hd Hv)]]].
  - unfold center_row. assert (Es : sset_of (map fst b) = sset_of vs).
    { apply sorted_same; try apply sset_of_sorted. intros v. rewrite !sset_of_In. apply Hb. }
    rewrite Es. assert (Hin : forall v, In v (sset_of vs) -> In v vs) by (intros v; now rewrite sset_of_In). revert Hin. generalize (sset_of vs) as l.
    induction l as [|v l IH]; intros Hin; [reflexivity|]. cbn [mapM map]. destruct (P v (Hin v (or_introl eq_refl))) as (k & lk & hk & E & _ & E1 & E2 & _).
    assert (G : box_get b v = Some (EInt [k])).
    { destruct (assign_real vs b v Hb (Hin v (or_introl eq_refl))) as (A & HA & EA & _). rewrite E in EA. injection EA as <-. apply box_get_In; [apply Hb|exact HA]. }
    rewrite G. cbn [center]. rewrite E1, E2. rewrite IH by (intros w Hw; apply Hin; now right). do 2 f_equal. unfold x, mid. rewrite E. cbn [center]. now rewrite E1, E2.
  - unfold in_comp. apply forallb_forall. intros l Hl. destruct Hcc as (H1 & H2 & H3 & H4). assert (Hv : In (dvar l) vs) by (apply H4; now apply in_map).
    destruct (P _ Hv) as (k & lk & hk & _ & _ & _ & _ & Q & _). now rewrite cside_leaf in Q.
  - unfold in_comp. apply forallb_forall. intros l Hl. destruct Hd as (H1 & H2 & H3 & H4). assert (Hv : In (dvar l) vs) by (apply H4; now apply in_map).
    destruct (P _ Hv) as (k & lk & hk & _ & _ & _ & _ & _ & Q). now rewrite cside_leaf in Q.
Qed.

(** ** The events of higher density *)
Lemma likelihood_mixture sn g vs cs x : vs <> [] -> Forall (comp_ok vs) cs -> cs <> [] -> layered_circuit g (mixture cs) ->
  likelihood sn g (map x (sset_of vs)) = Some (Fin (height_at cs x)).
Proof.
  intros Hvs Hc Hne Hl. pose proof (mixture_smooth vs cs Hc Hne) as Hs.
  destruct (likelihood_at_lik g (mixture cs) x Hl Hs sn) as (vars & ll & st' & H1 & H2 & H3).
  assert (Ev : vars = sset_of vs).
  { destruct Hl as (_ & _ & r & Hr & _ & Hu). destruct (circuit_variables_spec dist_vars g r (mixture cs) Hr Hu Hs) as (vars' & E & S1 & S2).
    assert (vars' = vars) as -> by congruence. apply sorted_same; [exact S1|apply sset_of_sorted|]. intros v. rewrite S2, sset_of_In. now apply mentions_mixture. }
  subst vars. unfold likelihood. rewrite H2, H3. now rewrite (mixture_lik vs) by auto.
Qed.

Section Pair.
Variables (se : store event) (sn : store num) (vs : list nat) (g h : graph dist) (cs ds : list comp) (tol : R).
Hypothesis Hvs : vs <> [].
Hypothesis Hc : Forall (comp_ok vs) cs.
Hypothesis Hd : Forall (comp_ok vs) ds.
Hypothesis Hnc : cs <> [].
Hypothesis Hnd : ds <> [].
Hypothesis Lg : layered_circuit g (mixture cs).
Hypothesis Lh : layered_circuit h (mixture ds).
Lemma sub_support g' t u c : layered_circuit g' t -> (exists r, root g' = Some r /\ In u (subcircuits g' r)) -> comp_ok vs c -> unfolds g' u (product c) ->
  exists q, subgraph_of g' u = Some q /\ support se q = Some [cbox c].
Proof.
  intros (Hwf & Hlt & r & Hr & Hg & Hu) (r' & Hr' & Hin) Hcc Ht. assert (r' = r) as -> by congruence.
  destruct (subgraph_of_spec g' r u (product c)) as (q & Hq & Lq); auto.
  - now apply reach_child.
  - unfold subcircuits in Hin. apply in_map_iff in Hin as (e & <- & He). apply (wf_dst g' Hwf). unfold out_edges in He. now apply filter_In in He.
  - exists q. split; [exact Hq|]. apply (support_layered se q (product c)); [exact Lq|]. now apply (product_support vs).
Qed.

Lemma higher_product_gen u w c d : (exists r, root g = Some r /\ In u (subcircuits g r)) -> (exists r, root h = Some r /\ In w (subcircuits h r)) ->
  In c cs -> In d ds -> unfolds g u (product c) -> unfolds h w (product d) ->
  exists X, higher_product se sn g h (Fin tol) u w = Some X /\ real_event vs X /\ solid X /\
    ((tiles X (fun _ => false) /\ forall x, in_comp c x && in_comp d x = false) \/
     exists x0, (forall v, In v vs -> x0 v = mid (EInt (interval_inter [cside c v] [cside d v]))) /\ in_comp c x0 = true /\ in_comp d x0 = true /\
       tiles X (fun x => in_comp c x && in_comp d x && Rltb tol (height_at cs x0 - height_at ds x0))).
Proof.
  intros Hu Hw Ic Id Tu Tw. pose proof (proj1 (Forall_forall _ _) Hc c Ic) as Oc. pose proof (proj1 (Forall_forall _ _) Hd d Id) as Od.
  destruct (sub_support g _ u c Lg Hu Oc Tu) as (q & Hq & Sq). destruct (sub_support h _ w d Lh Hw Od Tw) as (q' & Hq' & Sq').
  unfold higher_product. rewrite Hq, Hq', Sq, Sq'. unfold event_inter. cbn [flat_map map app filter].
  assert (Gc : box_good (cbox c)) by (apply (real_box_good vs); [now apply cbox_real|exact Hvs]).
  assert (Gd : box_good (cbox d)) by (apply (real_box_good vs); [now apply cbox_real|exact Hvs]).
  assert (Pt : forall x, in_box (box_inter (cbox c) (cbox d)) x = in_comp c x && in_comp d x) by (intros x; rewrite in_box_inter by auto; now rewrite !in_cbox).
  pose proof (box_inter_real vs c d Oc Od) as Rb.
  destruct (box_empty (box_inter (cbox c) (cbox d))) eqn:Eb; cbn [negb].
  - exists []. split; [reflexivity|]. split; [constructor|]. split; [constructor|]. left. split; [exact tiles_nil|]. intros x. rewrite <- Pt.
    apply (box_empty_none _ x); [apply (real_box_good vs _ Rb Hvs)|exact Eb].
  - destruct (center_row_spec vs c d Oc Od Eb) as (x0 & Er & X1 & X2 & X3). rewrite Er, (likelihood_mixture sn g vs cs), (likelihood_mixture sn h vs ds) by auto.
    cbn [nsub nopp nadd flt]. change (height_at cs x0 + - height_at ds x0) with (height_at cs x0 - height_at ds x0).
    destruct (Rltb tol (height_at cs x0 - height_at ds x0)) eqn:Et.
    + eexists. split; [reflexivity|]. split; [constructor; [exact Rb|constructor]|]. split; [constructor; [exact Eb|constructor]|]. right. exists x0.
      split; [exact X3|]. split; [exact X1|]. split; [exact X2|]. intros x. rewrite Et, andb_true_r, <- Pt. apply tiles_one.
    + exists []. split; [reflexivity|]. split; [constructor|]. split; [constructor|]. right. exists x0. split; [exact X3|]. split; [exact X1|]. split; [exact X2|].
      intros x. rewrite Et, andb_false_r. reflexivity.
Qed.

Lemma fold_pairs us : forall Ys acc X, Forall2 (fun uw Y => exists F, higher_product se sn g h (Fin tol) (fst uw) (snd uw) = Some F /\ real_event vs F /\ solid F /\ tiles F Y) us Ys ->
  real_event vs acc -> solid acc -> tiles acc X ->
  exists E, foldM (fun acc pair => match higher_product se sn g h (Fin tol) (fst pair) (snd pair) with None => None | Some X => Some (event_or acc X) end) us acc = Some E /\
    real_event vs E /\ solid E /\ tiles E (fun x => X x || existsb (fun Y => Y x) Ys).
Proof.
  induction us as [|u us IH]; intros Ys acc X Hf Ra Sa Ta; inversion Hf as [|? Y ? Ys' (F & Ey & Ry & Sy & Ty) Hf']; subst.
  - exists acc. split; [reflexivity|]. split; [exact Ra|]. split; [exact Sa|]. intros x. cbn [existsb]. now rewrite orb_false_r.
  - cbn [foldM]. rewrite Ey. destruct (event_or_tiles vs acc F X _ Hvs Ra Ry Ta Ty) as [R1 T1].
    destruct (IH Ys' (event_or acc F) _ Hf' R1 (event_or_solid acc F Sa Sy) T1) as (E & E1 & E2 & E3 & E4). exists E.
    split; [exact E1|]. split; [exact E2|]. split; [exact E3|]. intros x. rewrite E4. cbn [existsb]. now rewrite orb_assoc.
Qed.

Lemma Forall2_pairs {A B C D} (P : A -> C -> Prop) (Q : B -> D -> Prop) la lc lb ld : Forall2 P la lc -> Forall2 Q lb ld ->
  Forall2 (fun ab cd => P (fst ab) (fst cd) /\ Q (snd ab) (snd cd)) (list_prod la lb) (list_prod lc ld).
Proof.
  intros H1 H2. induction H1 as [|a c la lc Ha _ IH]; [constructor|]. cbn [list_prod]. apply Forall2_app; [|exact IH].
  clear -Ha H2. induction H2; constructor; auto.
Qed.

Lemma Forall2_members {A B} (P : A -> B -> Prop) l l' : Forall2 P l l' -> Forall2 (fun a b => In a l /\ In b l' /\ P a b) l l'.
Proof.
  intros H. assert (K : forall L L', incl l L -> incl l' L' -> Forall2 (fun a b => In a L /\ In b L' /\ P a b) l l').
  { intros L L'. induction H as [|a b l l' Ha _ IH]; intros I1 I2; constructor.
    - split; [apply I1; now left|]. split; [apply I2; now left|exact Ha].
    - apply IH; intros x Hx; [apply I1|apply I2]; now right. }
  apply K; intros x Hx; exact Hx.
Qed.

Lemma children g' r l : unfolds g' r (mixture l) -> Forall2 (fun u c => In u (subcircuits g' r) /\ In c l /\ unfolds g' u (product c)) (subcircuits g' r) l.
Proof.
  intros H. apply (Forall2_members (fun u c => unfolds g' u (product c))). inversion H as [| ? ts Hk Hne Hf E|]; subst. unfold subcircuits. clear -Hf.
  revert Hf. generalize (out_edges g' r) as es. induction l as [|c l IH]; intros es Hf; inversion Hf as [|e ? es' ? [H1 H2] Hf']; subst; constructor; auto.
Qed.

Lemma in_cboxes l x : in_event (map cbox l) x = existsb (fun c => in_comp c x) l.
Proof. unfold in_event. induction l as [|c l IH]; [reflexivity|]. cbn [map existsb]. now rewrite in_cbox, IH. Qed.

Lemma cboxes_real l : Forall (comp_ok vs) l -> real_event vs (map cbox l).
Proof. intros H. apply Forall_map. eapply Forall_impl; [|exact H]. intros c. apply cbox_real. Qed.

Lemma cboxes_solid l : Forall (comp_ok vs) l -> solid (map cbox l).
Proof.
  intros H. apply Forall_map. eapply Forall_impl; [|exact H]. intros c (_ & _ & _ & Hv). apply cbox_solid. intros E. rewrite E in Hv. destruct vs as [|v vs']; [congruence|].
  destruct (proj2 (Hv v) (or_introl eq_refl)).
Qed.

(** The event, for any components: what is outside the other support, and the intersections that win at their centres. *)
Theorem higher_sum_gen : exists E Ys, higher_sum se sn g h (Fin tol) = Some E /\ real_event vs E /\ solid E /\
  Forall2 (fun cd Y => (Y = (fun _ => false) /\ forall x, in_comp (fst cd) x && in_comp (snd cd) x = false) \/
     exists x0, (forall v, In v vs -> x0 v = mid (EInt (interval_inter [cside (fst cd) v] [cside (snd cd) v]))) /\ in_comp (fst cd) x0 = true /\ in_comp (snd cd) x0 = true /\
       Y = (fun x => in_comp (fst cd) x && in_comp (snd cd) x && Rltb tol (height_at cs x0 - height_at ds x0))) (list_prod cs ds) Ys /\
  tiles E (fun x => (existsb (fun c => in_comp c x) cs && negb (existsb (fun d => in_comp d x) ds)) || existsb (fun Y => Y x) Ys).
Proof.
  unfold higher_sum. rewrite (support_layered se g _ _ Lg (mixture_support vs cs Hc Hvs Hnc)), (support_layered se h _ _ Lh (mixture_support vs ds Hd Hvs Hnd)).
  pose proof Lg as (_ & _ & r & Hr & _ & Hu). pose proof Lh as (_ & _ & s & Hs & _ & Hw). rewrite Hr, Hs.
  destruct (make_disjoint_tiles vs (map cbox cs) Hvs (cboxes_real cs Hc)) as [R1 T1].
  destruct (event_minus_tiles vs _ (map cbox ds) _ Hvs R1 (cboxes_real ds Hd) T1) as [R2 T2].
  pose proof (event_minus_solid (map cbox ds) _ (make_disjoint_solid _ (cboxes_solid cs Hc))) as S2.
  assert (HP : exists Ys, Forall2 (fun uw Y => exists F, higher_product se sn g h (Fin tol) (fst uw) (snd uw) = Some F /\ real_event vs F /\ solid F /\ tiles F Y) (list_prod (subcircuits g r) (subcircuits h s)) Ys /\
    Forall2 (fun cd Y => (Y = (fun _ => false) /\ forall x, in_comp (fst cd) x && in_comp (snd cd) x = false) \/
     exists x0, (forall v, In v vs -> x0 v = mid (EInt (interval_inter [cside (fst cd) v] [cside (snd cd) v]))) /\ in_comp (fst cd) x0 = true /\ in_comp (snd cd) x0 = true /\
       Y = (fun x => in_comp (fst cd) x && in_comp (snd cd) x && Rltb tol (height_at cs x0 - height_at ds x0))) (list_prod cs ds) Ys).
  { pose proof (Forall2_pairs _ _ _ _ _ _ (children g r cs Hu) (children h s ds Hw)) as HF. revert HF.
    generalize (list_prod (subcircuits g r) (subcircuits h s)) as us, (list_prod cs ds) as ps. intros us ps HF.
    induction HF as [|[u w] [c d] us ps [(A1 & A2 & A3) (B1 & B2 & B3)] _ (Ys & I1 & I2)]; [exists []; split; constructor|]. cbn [fst snd] in *.
    destruct (higher_product_gen u w c d) as (F & F1 & F2 & F3 & F4); eauto.
    destruct F4 as [[F4 F5]|(x0 & F4 & F5 & F6 & F7)].
    - exists ((fun _ => false) :: Ys). split; constructor; auto. exists F. auto.
    - exists ((fun x => in_comp c x && in_comp d x && Rltb tol (height_at cs x0 - height_at ds x0)) :: Ys). split; constructor; auto; [exists F; auto|]. right. exists x0. cbn [fst snd]. auto. }
  destruct HP as (Ys & H1 & H2). destruct (fold_pairs _ _ _ _ H1 R2 S2 T2) as (E & E1 & E2 & E3 & E4).
  exists E, Ys. split; [exact E1|]. split; [exact E2|]. split; [exact E3|]. split; [exact H2|]. intros x. rewrite E4. now rewrite !in_cboxes.
Qed.

(** ** Exclusive components *)
Hypothesis Xc : exclusive (mixture cs).
Hypothesis Xd : exclusive (mixture ds).

Definition higher (c d : comp) (x : nat -> R) : bool := in_comp c x && in_comp d x && Rltb tol (hgt c - hgt d).

Definition denser (x : nat -> R) : bool :=
  (existsb (fun c => in_comp c x) cs && negb (existsb (fun d => in_comp d x) ds)) || existsb (fun cd => higher (fst cd) (snd cd) x) (list_prod cs ds).

Theorem higher_sum_spec : exists E, higher_sum se sn g h (Fin tol) = Some E /\ real_event vs E /\ solid E /\ tiles E denser.
Proof.
  destruct higher_sum_gen as (E & Ys & E1 & E2 & E3 & HY & E4). exists E. split; [exact E1|]. split; [exact E2|]. split; [exact E3|]. intros x. rewrite E4. clear E4. unfold denser. do 2 f_equal.
  assert (Hin : incl (list_prod cs ds) (list_prod cs ds)) by (intros p Hp; exact Hp). revert HY Hin. generalize (list_prod cs ds) at 1 2 4 as ps. intros ps HY.
  induction HY as [|[c d] Y ps Ys HY _ IH]; intros Hin; [reflexivity|]. cbn [existsb fst snd] in *. rewrite IH by (intros p Hp; apply Hin; now right). f_equal.
  assert (Hcd : In (c, d) (list_prod cs ds)) by (apply Hin; now left). apply in_prod_iff in Hcd as [Ic Id]. unfold higher.
  destruct HY as [[-> H]|(x0 & _ & X1 & X2 & ->)]; [now rewrite H|]. now rewrite (height_inside vs cs Hc Xc c x0 Ic X1), (height_inside vs ds Hd Xd d x0 Id X2).
Qed.

(** ** The density on and off the event *)
Lemma denser_on x : 0 <= tol -> denser x = true -> 0 <= height_at cs x - height_at ds x.
Proof.
  intros Ht H. unfold denser in H. apply orb_true_iff in H as [H|H].
  - apply andb_true_iff in H as [H1 H2]. apply existsb_exists in H1 as (c & Ic & X1). rewrite (height_inside vs cs Hc Xc c x Ic X1).
    rewrite (height_outside ds x); [pose proof (hgt_nonneg vs c (proj1 (Forall_forall _ _) Hc c Ic)); lra|]. intros d Id. apply negb_true_iff in H2.
    destruct (in_comp d x) eqn:E; [|reflexivity]. assert (existsb (fun d => in_comp d x) ds = true) by (apply existsb_exists; eauto). congruence.
  - apply existsb_exists in H as ([c d] & Hin & H). apply in_prod_iff in Hin as [Ic Id]. cbn [fst snd] in H. unfold higher in H. apply andb_true_iff in H as [H H3]. apply andb_true_iff in H as [H1 H2].
    rewrite (height_inside vs cs Hc Xc c x Ic H1), (height_inside vs ds Hd Xd d x Id H2). destruct (Rltb_spec tol (hgt c - hgt d)); [lra|discriminate].
Qed.

Lemma denser_off x : 0 <= tol -> denser x = false -> height_at cs x - height_at ds x <= tol * Rsum (map (fun c => ind (in_comp c x)) cs).
Proof.
  intros Ht H. unfold denser in H. apply orb_false_iff in H as [H1 H2].
  assert (Hn : 0 <= height_at ds x).
  { apply Rsum_nonneg, Forall_map, Forall_forall. intros d Id. apply Rmult_le_pos; [now apply (hgt_nonneg vs), (proj1 (Forall_forall _ _) Hd)|apply ind_nonneg]. }
  assert (Hn' : 0 <= Rsum (map (fun c => ind (in_comp c x)) cs)) by (apply Rsum_nonneg, Forall_map, Forall_forall; intros; apply ind_nonneg).
  destruct (existsb (fun c => in_comp c x) cs) eqn:Ec.
  - apply existsb_exists in Ec as (c & Ic & X1). cbn [andb] in H1. apply negb_false_iff in H1. apply existsb_exists in H1 as (d & Id & X2).
    rewrite (height_inside vs cs Hc Xc c x Ic X1), (height_inside vs ds Hd Xd d x Id X2). pose proof (count_inside cs c x Ic X1) as Hk.
    assert (Hh : higher c d x = false).
    { destruct (higher c d x) eqn:E; [|reflexivity]. assert (existsb (fun cd => higher (fst cd) (snd cd) x) (list_prod cs ds) = true); [|congruence].
      apply existsb_exists. exists (c, d). split; [now apply in_prod|exact E]. }
    unfold higher in Hh. rewrite X1, X2 in Hh. cbn [andb] in Hh. destruct (Rltb_spec tol (hgt c - hgt d)); [discriminate|].
    assert (tol * 1 <= tol * Rsum (map (fun c => ind (in_comp c x)) cs)) by (apply Rmult_le_compat_l; lra). lra.
  - rewrite (height_outside cs x).
    + assert (0 <= tol * Rsum (map (fun c => ind (in_comp c x)) cs)) by (apply Rmult_le_pos; auto). lra.
    + intros c Ic. destruct (in_comp c x) eqn:E; [|reflexivity]. assert (existsb (fun c => in_comp c x) cs = true) by (apply existsb_exists; eauto). congruence.
Qed.

(** ** Probabilities *)
Lemma simple_ok l e : Forall (comp_ok vs) l -> real_simple vs e -> (forall v, In v vs -> e v <> EInt []) -> event_ok (mixture l) e.
Proof.
  intros Hl He Hn. unfold event_ok, mixture. cbn [all_leaves]. rewrite fold_and_Forall. apply Forall_map. apply Forall_forall. intros c Ic. cbn [snd]. unfold product. cbn [all_leaves].
  rewrite fold_and_Forall. apply Forall_map. apply Forall_forall. intros d Id. cbn [all_leaves]. destruct (proj1 (Forall_forall _ _) Hl c Ic) as (_ & Hu & _ & Hv).
  rewrite Forall_forall in Hu. destruct (Hu d Id) as [_ (v & i & ->)]. assert (Iv : In v vs) by (apply Hv; now apply (in_map dvar) in Id). cbn [dvar].
  destruct (He v Iv) as (A & EA & HA). rewrite EA. cbn. split; [exact HA|]. intros ->. now apply (Hn v Iv).
Qed.

Lemma assign_simple b : real_box vs b -> real_simple vs (assign b).
Proof. intros Hb v Hv. destruct (assign_real vs b v Hb Hv) as (A & _ & -> & HA). exists A. auto. Qed.

Lemma probability_mixture g' l E : Forall (comp_ok vs) l -> layered_circuit g' (mixture l) -> real_event vs E -> solid E ->
  probability sn g' E = Some (Fin (total_mass l (map assign E))).
Proof.
  intros Hl Lg' HE HS. unfold probability.
  assert (K : mapM (fun b => match probability_of_simple_event (dist_prob (assign b)) g' sn with None => None | Some (p, _) => Some p end) E = Some (map (fun b => Fin (mass l (assign b))) E)).
  { induction HE as [|b E Hb _ IH]; [reflexivity|]. inversion HS as [|? ? Sb HS']; subst. cbn [mapM map].
    destruct (answers_semR g' (mixture l) (assign b) Lg' (mixture_sums vs l Hl) (mixture_leaves vs l Hl dist_ok (fun d H _ => H))
      (simple_ok l (assign b) Hl (assign_simple b Hb) (fun v Iv H => assign_nonempty vs b v [] Hb Sb Iv H eq_refl)) sn) as (st' & ->). now rewrite (IH HS'). }
  rewrite K. f_equal. rewrite (nsum_map_Fin (fun b => Fin (mass l (assign b))) (fun b => mass l (assign b))) by auto. unfold total_mass. now rewrite map_map.
Qed.

Lemma times_cnt E x : real_event vs E -> times vs (map assign E) x = cnt E x.
Proof. intros HE. unfold times, cnt. rewrite map_map. apply Rsum_ext. intros b Hb. unfold in_simple. now rewrite (in_box_assign vs) by now apply (proj1 (Forall_forall _ _) HE). Qed.

Hypothesis Ht : 0 <= tol.
Hypothesis Nvs : NoDup vs.

Theorem l1_spec : exists E, l1 se sn g h (Fin tol) = Some (Fin (2 * (total_mass cs (map assign E) - total_mass ds (map assign E)))) /\
  real_event vs E /\ solid E /\ tiles E denser /\
  forall A, Forall (real_simple vs) A -> (forall x, 0 <= times vs A x <= 1) ->
    total_mass cs A - total_mass ds A <= total_mass cs (map assign E) - total_mass ds (map assign E) + tol * Rsum (map volume cs).
Proof.
  destruct higher_sum_spec as (E & HE & RE & SE & TE). exists E. unfold l1. rewrite HE, (probability_mixture g cs), (probability_mixture h ds) by auto.
  split; [reflexivity|]. split; [exact RE|]. split; [exact SE|]. split; [exact TE|]. intros A HA Hd1.
  apply (compare_events vs); auto.
  - apply Forall_map. eapply Forall_impl; [|exact RE]. intros b. apply assign_simple.
  - intros x. rewrite times_cnt by auto. rewrite TE. specialize (Hd1 x). destruct (denser x) eqn:Ex; cbn [ind].
    + pose proof (denser_on x Ht Ex). assert (0 <= Rsum (map (fun c => ind (in_comp c x)) cs)) by (apply Rsum_nonneg, Forall_map, Forall_forall; intros; apply ind_nonneg).
      assert (0 <= tol * Rsum (map (fun c => ind (in_comp c x)) cs)) by now apply Rmult_le_pos.
      assert (0 <= (1 - times vs A x) * (height_at cs x - height_at ds x)) by (apply Rmult_le_pos; lra). lra.
    + pose proof (denser_off x Ht Ex). set (k := times vs A x) in *. set (y := height_at cs x - height_at ds x) in *. set (z := tol * Rsum (map (fun c => ind (in_comp c x)) cs)) in *.
      assert (0 <= z) by (unfold z; apply Rmult_le_pos; [exact Ht|apply Rsum_nonneg, Forall_map, Forall_forall; intros; apply ind_nonneg]).
      destruct (Rle_dec y 0) as [Hy|Hy]; [assert (0 <= k * (- y)) by (apply Rmult_le_pos; lra); lra|]. assert (k * y <= 1 * y) by (apply Rmult_le_compat_r; lra). lra.
Qed.
End Pair.
