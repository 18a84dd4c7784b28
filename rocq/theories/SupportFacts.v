(** * SupportFacts: events as sets of points, support against likelihood, determinism of the tree *)
From Coq Require Import List Arith Bool Lia Reals Lra ZArith.
From Verif Require Import Num Graph GraphFacts Spec SpecFacts Circuit EvalFacts VarFacts Interval GaussInt Dist DistFacts
  TreeProb LeafCond Support.
Import ListNotations.
Local Open Scope nat_scope.

(** ** Events *)
Definition evset_good (A : evset) : Prop := match A with EInt A => Forall sint_ok A | ESym _ => True end.
Definition box_good (b : box) : Prop := b <> [] /\ Forall (fun vA => evset_good (snd vA)) b.
Definition event_good (E : event) : Prop := Forall box_good E.

Lemma interval_inter_good A B : Forall sint_ok A -> Forall sint_ok B -> Forall sint_ok (interval_inter A B).
Proof.
  rewrite !Forall_forall. intros HA HB k Hk. unfold interval_inter in Hk. apply filter_In in Hk. destruct Hk as [Hk Hn].
  apply negb_true_iff in Hn. apply in_flat_map in Hk. destruct Hk as [i [Hi Hk]]. apply in_map_iff in Hk.
  destruct Hk as [j [<- Hj]]. now apply sint_inter_ok; auto.
Qed.

Lemma evset_inter_good A B : evset_good A -> evset_good B -> evset_good (evset_inter A B).
Proof. destruct A, B; simpl; auto. apply interval_inter_good. Qed.

Lemma in_evset_inter A B x : evset_good A -> evset_good B -> in_evset (evset_inter A B) x = in_evset A x && in_evset B x.
Proof.
  destruct A as [A|l], B as [B|m]; simpl; intros HA HB.
  - now apply in_interval_inter.
  - apply eq_true_iff_eq. rewrite andb_true_iff, !existsb_exists. split.
    + intros [k [Hk Hx]]. apply filter_In in Hk. destruct Hk as [Hk Hi]. destruct (Reqb_spec (IZR k) x); [subst x|discriminate].
      split; auto. exists k. split; auto. destruct (Reqb_spec (IZR k) (IZR k)); auto.
    + intros [Hi [k [Hk Hx]]]. exists k. split; auto. apply filter_In. split; auto.
      destruct (Reqb_spec (IZR k) x); [now subst x|discriminate].
  - apply eq_true_iff_eq. rewrite andb_true_iff, !existsb_exists. split.
    + intros [k [Hk Hx]]. apply filter_In in Hk. destruct Hk as [Hk Hi]. destruct (Reqb_spec (IZR k) x); [subst x|discriminate].
      split; auto. exists k. split; auto. destruct (Reqb_spec (IZR k) (IZR k)); auto.
    + intros [[k [Hk Hx]] Hi]. exists k. split; auto. apply filter_In. split; auto.
      destruct (Reqb_spec (IZR k) x); [now subst x|discriminate].
  - apply eq_true_iff_eq. rewrite andb_true_iff, !existsb_exists. split.
    + intros [k [Hk Hx]]. apply filter_In in Hk. destruct Hk as [Hk Hi]. apply existsb_exists in Hi. destruct Hi as [k' [Hk' E]].
      apply Z.eqb_eq in E. subst k'. split; eauto.
    + intros [[k [Hk Hx]] [k' [Hk' Hx']]]. exists k. split; auto. apply filter_In. split; auto. apply existsb_exists.
      exists k'. split; auto. apply Z.eqb_eq. destruct (Reqb_spec (IZR k) x), (Reqb_spec (IZR k') x); try discriminate.
      apply eq_IZR. congruence.
Qed.

Lemma evset_empty_none A x : evset_empty A = true -> in_evset A x = false.
Proof. destruct A as [[|]|[|]]; simpl; auto; discriminate. Qed.

Lemma constrain_good v A b : evset_good A -> Forall (fun vA => evset_good (snd vA)) b -> box_good (constrain v A b).
Proof.
  intros HA. induction b as [|[w B] b IH]; simpl; intros Hb.
  - split; [discriminate|]. now constructor.
  - inversion Hb; subst. destruct (w =? v).
    + split; [discriminate|]. constructor; auto. simpl in *. now apply evset_inter_good.
    + split; [discriminate|]. constructor; auto. now apply IH.
Qed.

Lemma in_box_constrain v A b x : evset_good A -> Forall (fun vA => evset_good (snd vA)) b ->
  in_box (constrain v A b) x = in_box b x && in_evset A (x v).
Proof.
  intros HA. induction b as [|[w B] b IH]; cbn [constrain]; intros Hb; [simpl; now rewrite andb_true_r|].
  inversion Hb; subst. destruct (w =? v) eqn:E.
  - apply Nat.eqb_eq in E. subst w. unfold in_box. cbn [forallb fst snd]. rewrite in_evset_inter by auto.
    destruct (in_evset B (x v)), (in_evset A (x v)), (forallb _ b); reflexivity.
  - unfold in_box in *. cbn [forallb fst snd]. rewrite IH by auto. now rewrite andb_assoc.
Qed.

Lemma box_inter_good a b : box_good a -> box_good b -> box_good (box_inter a b).
Proof.
  intros Ha [_ Hb]. unfold box_inter. revert a Ha. induction Hb as [|[v A] b HA Hb IH]; simpl; intros a Ha; auto.
  apply IH. apply constrain_good; auto. apply Ha.
Qed.

Lemma in_box_inter a b x : box_good a -> box_good b -> in_box (box_inter a b) x = in_box a x && in_box b x.
Proof.
  intros Ha [_ Hb]. unfold box_inter. revert a Ha. induction Hb as [|[v A] b HA Hb IH]; cbn [fold_left fst snd]; intros a Ha.
  - unfold in_box at 3. simpl. now rewrite andb_true_r.
  - rewrite IH by (apply constrain_good; auto; apply Ha). rewrite in_box_constrain by (auto; apply Ha).
    unfold in_box at 4. cbn [forallb fst snd]. now rewrite andb_assoc.
Qed.

Lemma box_empty_none b x : b <> [] -> box_empty b = true -> in_box b x = false.
Proof.
  intros Hne H. destruct b as [|p b]; [congruence|]. unfold box_empty in H. apply existsb_exists in H.
  destruct H as [q [Hq He]]. unfold in_box. apply not_true_is_false. intros H. rewrite forallb_forall in H. apply H in Hq.
  rewrite evset_empty_none in Hq by auto. discriminate.
Qed.

Lemma event_inter_good E F : event_good E -> event_good F -> event_good (event_inter E F).
Proof.
  unfold event_good. rewrite !Forall_forall. intros HE HF k Hk. apply filter_In in Hk. destruct Hk as [Hk _].
  apply in_flat_map in Hk. destruct Hk as [a [Ha Hk]]. apply in_map_iff in Hk. destruct Hk as [b [<- Hb]].
  apply box_inter_good; auto.
Qed.

Lemma in_event_inter E F x : event_good E -> event_good F -> in_event (event_inter E F) x = in_event E x && in_event F x.
Proof.
  unfold event_good. rewrite !Forall_forall. intros HE HF. apply eq_true_iff_eq. unfold in_event, event_inter.
  rewrite andb_true_iff, !existsb_exists. split.
  - intros [k [Hk Hx]]. apply filter_In in Hk. destruct Hk as [Hk _]. apply in_flat_map in Hk. destruct Hk as [a [Ha Hk]].
    apply in_map_iff in Hk. destruct Hk as [b [<- Hb]]. rewrite in_box_inter in Hx by auto. apply andb_true_iff in Hx.
    destruct Hx. split; eauto.
  - intros [[a [Ha Hxa]] [b [Hb Hxb]]]. exists (box_inter a b).
    assert (Hi : in_box (box_inter a b) x = true) by (rewrite in_box_inter by auto; now rewrite Hxa, Hxb).
    split; auto. apply filter_In. split.
    + apply in_flat_map. exists a. split; auto. now apply in_map.
    + apply negb_true_iff. destruct (box_empty (box_inter a b)) eqn:E'; auto.
      rewrite (box_empty_none _ x) in Hi; auto; try discriminate. apply (box_inter_good a b); auto.
Qed.

Lemma event_union_good E F : event_good E -> event_good F -> event_good (event_union E F).
Proof. intros. apply Forall_app. auto. Qed.

Lemma in_event_union E F x : in_event (event_union E F) x = in_event E x || in_event F x.
Proof. unfold in_event, event_union. apply existsb_app. Qed.

Lemma fold_union_good l : forall E, event_good E -> Forall event_good l -> event_good (fold_left event_union l E).
Proof. induction l; simpl; intros E HE Hl; auto. inversion Hl; subst. apply IHl; auto. now apply event_union_good. Qed.

Lemma in_fold_union l x : forall E, in_event (fold_left event_union l E) x = in_event E x || existsb (fun F => in_event F x) l.
Proof.
  induction l; simpl; intros E; [now rewrite orb_false_r|]. rewrite IHl, in_event_union. now rewrite orb_assoc.
Qed.

Lemma fold_inter_good l : forall E, event_good E -> Forall event_good l -> event_good (fold_left event_inter l E).
Proof. induction l; simpl; intros E HE Hl; auto. inversion Hl; subst. apply IHl; auto. now apply event_inter_good. Qed.

Lemma in_fold_inter l x : forall E, event_good E -> Forall event_good l ->
  in_event (fold_left event_inter l E) x = in_event E x && forallb (fun F => in_event F x) l.
Proof.
  induction l; simpl; intros E HE Hl; [now rewrite andb_true_r|]. inversion Hl; subst.
  rewrite IHl by (auto using event_inter_good). rewrite in_event_inter by auto. now rewrite andb_assoc.
Qed.

Lemma in_leaf_event v A x : in_event (leaf_event v A) x = in_evset A (x v).
Proof. unfold in_event, leaf_event, in_box. simpl. now rewrite orb_false_r, andb_true_r. Qed.

(** ** Positive numbers *)
Definition positive (a : num) : Prop := match a with Fin r => (0 < r)%R | PInf => True | _ => False end.

Lemma positive_add a b : nonneg a -> nonneg b -> positive (nadd a b) -> positive a \/ positive b.
Proof. destruct a, b; simpl; auto; try tauto. intros. destruct (Rlt_dec 0 r); auto. right. lra. Qed.

Lemma positive_mul a b : nonneg a -> nonneg b -> positive (nmul a b) -> positive a /\ positive b.
Proof.
  destruct a, b; simpl; auto; try tauto; unfold nscale_inf; intros Ha Hb; tot; simpl; try tauto; try lra.
  intros H. split; apply Rnot_le_lt; intros Hn.
  - assert (r = 0%R) by lra. subst. lra.
  - assert (r0 = 0%R) by lra. subst. lra.
Qed.

Lemma positive_sum l : Forall nonneg l -> positive (nsum l) -> Exists positive l.
Proof.
  induction 1 as [|a l Ha Hl IH]; simpl; [lra|]. intros H. apply positive_add in H; auto; [|now apply nonneg_sum].
  destruct H; [now left|right; auto].
Qed.

Lemma positive_prod l : Forall nonneg l -> positive (nprod l) -> Forall positive l.
Proof.
  induction 1 as [|a l Ha Hl IH]; simpl; [constructor|]. intros H. apply positive_mul in H; auto; [|now apply nonneg_prod].
  destruct H. constructor; auto.
Qed.

(** ** Likelihood of a point *)
Definition lik (t : pc dist) (x : nat -> R) : num := semN (fun d => nexp (ll1 d (x (dvar d)))) t.

Lemma semN_nonneg {D} (val : D -> num) t : (forall d, nonneg (val d)) -> nonneg (semN val t).
Proof.
  intros H. induction t as [d|l IH|l IH] using pc_ind'; simpl; auto.
  - apply nonneg_sum. apply Forall_map. eapply Forall_impl; [|exact IH]. simpl. intros. apply nonneg_mul; auto using nexp_nonneg.
  - apply nonneg_prod. now apply Forall_map.
Qed.

Lemma lik_nonneg t x : nonneg (lik t x).
Proof. apply semN_nonneg. intros. apply nexp_nonneg. Qed.

Lemma fold_ll_key p x acc : fold_left (fun acc kv => if Reqb x (IZR (fst kv)) then nlog (Fin (snd kv)) else acc) p acc = acc \/
  exists k q, In (k, q) p /\ x = IZR k /\ fold_left (fun acc kv => if Reqb x (IZR (fst kv)) then nlog (Fin (snd kv)) else acc) p acc = nlog (Fin q).
Proof.
  revert acc. induction p as [|[k q] p IH]; cbn [fold_left fst snd In]; intros acc; auto.
  destruct (IH (if Reqb x (IZR k) then nlog (Fin q) else acc)) as [->|(k' & q' & H1 & H2 & H3)].
  - destruct (Reqb_spec x (IZR k)); auto. right. exists k, q. auto.
  - right. exists k', q'. auto.
Qed.

Lemma fold_ll_in p k q acc : NoDup (keys p) -> In (k, q) p ->
  fold_left (fun acc kv => if Reqb (IZR k) (IZR (fst kv)) then nlog (Fin (snd kv)) else acc) p acc = nlog (Fin q).
Proof.
  revert acc. induction p as [|[k' q'] p IH]; cbn [fold_left fst snd In]; intros acc Hnd Hin; [tauto|]. inversion Hnd; subst.
  destruct Hin as [[= -> ->]|Hin]; [|apply IH; auto].
  destruct (Reqb_spec (IZR k) (IZR k)); [|congruence].
  destruct (fold_ll_key p (IZR k) (nlog (Fin q))) as [H|(k' & q' & H3 & H4 & _)]; auto.
  exfalso. apply H1. apply eq_IZR in H4. subst k'. apply in_map_iff. exists (k, q'). auto.
Qed.

Lemma positive_nexp_nlog q : positive (nexp (nlog (Fin q))) -> (0 < q)%R.
Proof. simpl. tot; simpl; lra. Qed.

(** A point of positive density lies in the support of a leaf. *)
Lemma leaf_support_sound d x : positive (nexp (ll1 d x)) -> in_evset (support1 d) x = true.
Proof.
  destruct d as [v i|v l c|v mu s|v i mu s|v p|v p]; cbn [ll1 support1 in_evset in_interval existsb]; rewrite ?orb_false_r.
  - destruct (in_sint i x); simpl; [auto|lra].
  - destruct (Reqb_spec x l); simpl; [|lra]. subst x. intros _. unfold in_sint, above, below. simpl. rb; auto; lra.
  - reflexivity.
  - destruct (in_sint i x); simpl; [auto|lra].
  - destruct (fold_ll_key p x NInf) as [->|(k & q & H1 & -> & ->)]; [simpl; lra|]. intros H. apply positive_nexp_nlog in H.
    apply existsb_exists. exists k. split; [|destruct (Reqb_spec (IZR k) (IZR k)); auto].
    apply in_map_iff. exists (k, q). split; auto. apply filter_In. split; auto. simpl. destruct (Rltb_spec 0 q); auto.
  - destruct (fold_ll_key p x NInf) as [->|(k & q & H1 & -> & ->)]; [simpl; lra|]. intros H. apply positive_nexp_nlog in H.
    apply existsb_exists. exists (isingleton (IZR k)). split; [|unfold in_sint, above, below; simpl; rb; auto; lra].
    apply in_map_iff. exists (k, q). split; auto. apply filter_In. split; auto. simpl. destruct (Rltb_spec 0 q); auto.
Qed.

Lemma isingleton_ok x : sint_ok (isingleton x).
Proof. unfold sint_ok, isingleton. simpl. repeat split; try discriminate. right. eauto. Qed.

Lemma ireals_ok : sint_ok ireals.
Proof. unfold sint_ok, ireals. simpl. repeat split; try discriminate. now left. Qed.

Lemma support1_good d : dist_ok d -> evset_good (support1 d).
Proof.
  destruct d as [v i|v l c|v mu s|v i mu s|v p|v p]; simpl; auto.
  - intros (a & b & Ha & Hb & Hab). constructor; auto. unfold sint_ok. rewrite Ha, Hb. simpl. repeat split; try discriminate. now left.
  - intros _. constructor; auto. apply isingleton_ok.
  - intros _. constructor; auto. apply ireals_ok.
  - intros (_ & H1 & H2 & H3). constructor; auto. unfold sint_ok. destruct (lo i), (hi i); simpl in *; try tauto; repeat split; try discriminate; auto.
  - intros _. apply Forall_map. apply Forall_forall. intros kv _. apply isingleton_ok.
Qed.

(** ** The support of a tree *)
Definition tsupp (t : pc dist) : option event := tev dist_support sum_support prod_support t.

Lemma tsupp_spec t E : all_leaves dist_ok t -> tsupp t = Some E ->
  event_good E /\ forall x, positive (lik t x) -> in_event E x = true.
Proof.
  unfold tsupp, lik. revert E. induction t as [d|l IH|l IH] using pc_ind'; intros E Hok HE.
  - simpl in HE. injection HE as <-. split.
    + constructor; auto. split; [discriminate|]. constructor; auto. now apply support1_good.
    + intros x Hx. rewrite in_leaf_event. now apply leaf_support_sound.
  - cbn [tev] in HE. destruct (mapM _ l) as [vs|] eqn:Em; [|discriminate]. apply mapM_Forall2 in Em.
    cbn [all_leaves] in Hok. rewrite fold_and_Forall in Hok.
    assert (H : Forall event_good (map snd vs) /\ forall x, Exists (fun wt => positive (semN (fun d => nexp (ll1 d (x (dvar d)))) (snd wt))) l ->
      existsb (fun F => in_event F x) (map snd vs) = true).
    { clear HE. induction Em as [|[w t] vs0 l vs H Em IHm]; [split; [constructor|intros x Hx; inversion Hx]|].
      inversion IH; subst. inversion Hok; subst. destruct IHm as [G1 G2]; auto. simpl in *.
      destruct (tev _ _ _ t) as [F|] eqn:EF; [|discriminate]. injection H as <-. destruct (H2 F) as [K1 K2]; auto. split; [now constructor|].
      intros x Hx. simpl. apply orb_true_iff. inversion Hx; subst; auto. }
    destruct vs as [|p vs]; [discriminate|]. cbn [sum_support] in HE. injection HE as <-. cbn [map] in H.
    destruct H as [H1 H2]. inversion H1; subst. split; [now apply fold_union_good|].
    intros x Hx. rewrite in_fold_union. simpl in H2. rewrite H2; auto. cbn [semN] in Hx. apply positive_sum in Hx.
    + apply Exists_exists in Hx. destruct Hx as [y [Hy Hp]]. apply in_map_iff in Hy. destruct Hy as [wt [<- Hy]].
      apply Exists_exists. exists wt. split; auto. apply positive_mul in Hp; auto using nexp_nonneg; try tauto.
      apply semN_nonneg. intros. apply nexp_nonneg.
    + apply Forall_map. apply Forall_forall. intros wt _. apply nonneg_mul; auto using nexp_nonneg. apply semN_nonneg. intros. apply nexp_nonneg.
  - cbn [tev] in HE. destruct (mapM _ l) as [vs|] eqn:Em; [|discriminate]. apply mapM_Forall2 in Em.
    cbn [all_leaves] in Hok. rewrite fold_and_Forall in Hok.
    assert (H : Forall event_good vs /\ forall x, Forall (fun t => positive (semN (fun d => nexp (ll1 d (x (dvar d)))) t)) l ->
      forallb (fun F => in_event F x) vs = true).
    { clear HE. induction Em as [|t F l vs H Em IHm]; [split; [constructor|auto]|].
      inversion IH; subst. inversion Hok; subst. destruct IHm as [G1 G2]; auto. destruct (H2 F) as [K1 K2]; auto. split; [now constructor|].
      intros x Hx. inversion Hx; subst. simpl. rewrite K2, G2; auto. }
    destruct vs as [|F vs]; [discriminate|]. cbn [prod_support] in HE. injection HE as <-. destruct H as [H1 H2].
    inversion H1; subst. split; [now apply fold_inter_good|]. intros x Hx. rewrite in_fold_inter by auto. apply (H2 x).
    cbn [semN] in Hx. apply positive_prod in Hx.
    + now rewrite Forall_map in Hx.
    + apply Forall_map. apply Forall_forall. intros t _. apply semN_nonneg. intros. apply nexp_nonneg.
Qed.

(** The support is defined when no product is childless. *)
Fixpoint products_nonempty (t : pc dist) : Prop :=
  match t with
  | PLeaf _ => True
  | PSum l => fold_right and True (map (fun wt => products_nonempty (snd wt)) l)
  | PProd l => l <> [] /\ fold_right and True (map products_nonempty l)
  end.

Lemma tsupp_defined t : sums_nonempty t -> products_nonempty t -> exists E, tsupp t = Some E.
Proof.
  unfold tsupp. induction t as [d|l IH|l IH] using pc_ind'; intros Hs Hp.
  - eexists. reflexivity.
  - cbn [sums_nonempty products_nonempty tev] in *. destruct Hs as [Hne Hs]. rewrite Forall_map_id in Hs. rewrite fold_and_Forall in Hp.
    assert (H : exists vs, mapM (fun wt => match tev dist_support sum_support prod_support (snd wt) with Some v => Some (fst wt, v) | None => None end) l = Some vs).
    { clear Hne. induction IH as [|[w t] l H _ IHl]; [exists []; auto|]. inversion Hs; subst. inversion Hp; subst. simpl in *.
      destruct (H H2 H4) as [E HE]. destruct (IHl H3 H5) as [vs Hvs]. exists ((w, E) :: vs). now rewrite HE, Hvs. }
    destruct H as [vs Hvs]. rewrite Hvs. destruct vs as [|p vs]; [|simpl; eauto].
    apply mapM_Forall2 in Hvs. inversion Hvs. subst. congruence.
  - cbn [sums_nonempty products_nonempty tev] in *. rewrite Forall_map_id in Hs. destruct Hp as [Hne Hp]. rewrite fold_and_Forall in Hp.
    assert (H : exists vs, mapM (tev dist_support sum_support prod_support) l = Some vs).
    { clear Hne. induction IH as [|t l H _ IHl]; [exists []; auto|]. inversion Hs; subst. inversion Hp; subst. simpl in *.
      destruct (H H2 H4) as [E HE]. destruct (IHl H3 H5) as [vs Hvs]. exists (E :: vs). now rewrite HE, Hvs. }
    destruct H as [vs Hvs]. rewrite Hvs. destruct vs as [|p vs]; [|simpl; eauto].
    apply mapM_Forall2 in Hvs. inversion Hvs. subst. congruence.
Qed.

(** ** What [is_deterministic] checks *)

(** At every sum unit of the tree no two children have intersecting supports. *)
Fixpoint disjoint_supports (t : pc dist) : Prop :=
  match t with
  | PLeaf _ => True
  | PSum l => (forall i j a b E F, i < j -> nth_error l i = Some a -> nth_error l j = Some b ->
                 tsupp (snd a) = Some E -> tsupp (snd b) = Some F -> event_inter E F = []) /\
              fold_right and True (map (fun wt => disjoint_supports (snd wt)) l)
  | PProd l => fold_right and True (map disjoint_supports l)
  end.

Lemma none_intersect_spec l : none_intersect l = true <->
  forall i j E F, i < j -> nth_error l i = Some E -> nth_error l j = Some F -> event_inter E F = [].
Proof.
  assert (Hem : forall E, event_empty E = true <-> E = []) by (intros [|]; simpl; split; congruence).
  induction l as [|E l IH]; simpl.
  - split; auto. intros _ [|i] j E F _ H; discriminate.
  - rewrite andb_true_iff, IH, forallb_forall. split.
    + intros [H1 H2] [|i] [|j] E' F Hij HE HF; try lia; simpl in *.
      * injection HE as <-. apply Hem. apply H1. eapply nth_error_In; eauto.
      * eapply (H2 i j); eauto. lia.
    + intros H. split.
      * intros F HF. apply Hem. apply In_nth_error in HF. destruct HF as [j Hj]. apply (H 0 (S j)); simpl; auto. lia.
      * intros i j E' F Hij HE HF. apply (H (S i) (S j)); auto. lia.
Qed.

Lemma all_opt_true l : all_opt l = Some true <-> Forall (fun o => o = Some true) l.
Proof.
  induction l as [|[[]|] l IH]; simpl; split; intros H; auto; try discriminate.
  - constructor; auto. now apply IH.
  - inversion H; subst. now apply IH.
  - inversion H; discriminate.
  - inversion H; discriminate.
Qed.

Lemma sum_nodes_In g u : node_kind g u = Some (@USum dist) -> In u (sum_nodes g).
Proof.
  intros H. apply node_kind_In in H. unfold sum_nodes. apply in_map_iff. exists (u, USum). split; auto. apply filter_In. auto.
Qed.

Lemma sum_nodes_kind g u : wf g -> In u (sum_nodes g) -> node_kind g u = Some (@USum dist).
Proof.
  intros Hwf H. unfold sum_nodes in H. apply in_map_iff in H. destruct H as [[u' k] [<- H]]. apply filter_In in H.
  destruct H as [H Hk]. simpl in *. destruct k; try discriminate. apply node_kind_NoDup; auto. apply Hwf.
Qed.
