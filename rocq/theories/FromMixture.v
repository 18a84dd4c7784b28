(** * FromMixture: reading a discrete distribution off a mixture of discrete distributions *)
From Coq Require Import List Arith Bool Lia ZArith Reals Lra.
From Verif Require Import Num Graph GraphFacts Spec SpecFacts Circuit EvalFacts VarFacts Interval Dist DistFacts TreeProb SimplifyFacts
  TreeLocal LeafCond PropertiesProb Support SupportFacts ModeFacts PropertiesSupport Mixture MixtureFacts.
Import ListNotations.
Local Open Scope R_scope.
Local Set Bullet Behavior "Strict Subproofs".

(** A mixture: sum units over leaves that satisfy [P]. *)
Fixpoint mixture (P : dist -> Prop) (t : pc dist) : Prop :=
  match t with
  | PLeaf d => P d
  | PSum l => fold_right and True (map (fun wt => mixture P (snd wt)) l)
  | PProd _ => False
  end.

(** A discrete distribution of the right kind: over an integer variable or over a symbolic one. *)
Definition discrete_over (b : bool) (v : nat) (p : dict) : dist := if b then DInt v p else DSym v p.
Definition leaf_over (b : bool) (v : nat) (d : dist) : Prop := exists p, d = discrete_over b v p.
Definition dprobs (d : dist) : dict := match d with DSym _ p | DInt _ p => p | _ => [] end.

Definition elem (b : bool) (k : Z) : evset := if b then EInt [isingleton (IZR k)] else ESym [k].
Definition mass (t : pc dist) (k : Z) : R := semR (fun d => dget (dprobs d) k) t.

(** ** Dictionaries *)
Lemma dget_dset p k q x : dget (dset p k q) x = if Z.eqb k x then q else dget p x.
Proof.
  unfold dset. destruct (existsb (fun kv => Z.eqb (fst kv) k) p) eqn:E.
  - induction p as [|[a b] p IH]; [discriminate|]. cbn [existsb fst map snd] in *. destruct (Z.eqb_spec a k) as [->|Ha]; cbn [orb fst] in *.
    + rewrite !dget_cons. destruct (Z.eqb_spec k x) as [->|Hx]; auto. clear -Hx. induction p as [|[a b'] p IH]; auto.
      cbn [map fst snd]. destruct (Z.eqb_spec a k) as [->|]; rewrite !dget_cons; rewrite IH; auto.
      destruct (Z.eqb_spec k x); congruence.
    + rewrite !dget_cons, IH by auto. destruct (Z.eqb_spec a x) as [->|]; auto. destruct (Z.eqb_spec k x); congruence.
  - induction p as [|[a b] p IH]; cbn [app].
    + rewrite dget_cons. reflexivity.
    + cbn [existsb fst] in E. apply orb_false_elim in E. destruct E as [E1 E2]. rewrite !dget_cons, IH by auto.
      destruct (Z.eqb_spec a x) as [->|]; auto. rewrite Z.eqb_sym, E1. reflexivity.
Qed.

Lemma keys_dset p k q : NoDup (keys p) -> NoDup (keys (dset p k q)) /\ (forall x, In x (keys (dset p k q)) <-> x = k \/ In x (keys p)).
Proof.
  intros Hp. unfold dset. destruct (existsb (fun kv => Z.eqb (fst kv) k) p) eqn:E.
  - assert (Hk : keys (map (fun kv => if Z.eqb (fst kv) k then (fst kv, q) else kv) p) = keys p).
    { unfold keys. rewrite map_map. apply map_ext. intros kv. now destruct (Z.eqb (fst kv) k). }
    rewrite Hk. split; auto. intros x. split; [tauto|]. intros [->|]; auto. apply existsb_exists in E. destruct E as ([a b] & Hin & E).
    apply Z.eqb_eq in E. simpl in E. subst. now apply (in_map fst) in Hin.
  - unfold keys. rewrite map_app. cbn [map fst]. split.
    + apply NoDup_app_intro; [exact Hp|repeat constructor; simpl; tauto|]. intros x Hx [<-|[]]. apply in_map_iff in Hx.
      destruct Hx as ([a b] & Ea & Hin). simpl in Ea. subst. assert (existsb (fun kv => Z.eqb (fst kv) k) p = true); [|congruence].
      apply existsb_exists. exists (k, b). split; auto. apply Z.eqb_refl.
    + intros x. rewrite in_app_iff. simpl. intuition auto.
Qed.

Lemma vals_dget p : NoDup (keys p) -> (forall k, 0 <= dget p k) -> dict_ok p.
Proof.
  intros Hp Hn. split; auto. apply Forall_forall. intros q Hq. unfold vals in Hq. apply in_map_iff in Hq. destruct Hq as ([k q'] & <- & Hin).
  simpl. rewrite <- (dget_In p k q' Hp Hin). apply Hn.
Qed.

(** Summing over the entries is summing over any duplicate-free list that contains the keys. *)
Lemma Rsum_entries (c : Z -> R) p K : NoDup (keys p) -> NoDup K -> incl (keys p) K ->
  Rsum (map (fun kv => c (fst kv) * snd kv) p) = Rsum (map (fun k => c k * dget p k) K).
Proof.
  intros Hp HK. induction p as [|[k q] p IH]; intros Hi.
  - cbn. symmetry. apply Rsum_zero. intros k _. unfold dget. simpl. ring.
  - cbn [keys map fst] in Hp. inversion Hp as [|? ? Hk Hp']; subst. cbn [map fst snd].
    change (Rsum (c k * q :: map (fun kv : Z * R => c (fst kv) * snd kv) p)) with (c k * q + Rsum (map (fun kv : Z * R => c (fst kv) * snd kv) p)).
    rewrite IH; auto. 2:{ intros x Hx. apply Hi. now right. }
    assert (Hin : In k K) by (apply Hi; now left). assert (Hd : dget p k = 0) by now apply dget_absent. clear IH Hi.
    induction K as [|a K IHK]; [destruct Hin|]. inversion HK as [|? ? Ha HK']; subst. cbn [map]. 
    change (Rsum (c a * dget p a :: map (fun k0 => c k0 * dget p k0) K)) with (c a * dget p a + Rsum (map (fun k0 => c k0 * dget p k0) K)).
    change (Rsum (c a * dget ((k, q) :: p) a :: map (fun k0 => c k0 * dget ((k, q) :: p) k0) K)) with (c a * dget ((k, q) :: p) a + Rsum (map (fun k0 => c k0 * dget ((k, q) :: p) k0) K)).
    rewrite dget_cons. destruct Hin as [->|Hin].
    + rewrite Z.eqb_refl, Hd. replace (Rsum (map (fun k0 => c k0 * dget ((k, q) :: p) k0) K)) with (Rsum (map (fun k0 => c k0 * dget p k0) K)); [ring|].
      apply Rsum_ext. intros x Hx. rewrite dget_cons. destruct (Z.eqb_spec k x); [congruence|reflexivity].
    + destruct (Z.eqb_spec k a) as [->|]; [tauto|]. rewrite <- IHK by auto. ring.
Qed.

(** ** The value of a mixture is linear in its leaves *)
Lemma mixture_linear {A} P (c : A -> R) (f : A -> dist -> R) K t : mixture P t ->
  semR (fun d => Rsum (map (fun k => c k * f k d) K)) t = Rsum (map (fun k => c k * semR (f k) t) K).
Proof.
  induction t as [d|l IH|l IH] using pc_ind'; cbn [mixture semR]; intros H; [reflexivity| |tauto].
  apply fold_and_Forall in H. rewrite Forall_forall in *.
  transitivity (Rsum (map (fun wt => Rsum (map (fun k => wexp (fst wt) * (c k * semR (f k) (snd wt))) K)) l)).
  - apply Rsum_ext. intros wt Hin. rewrite IH by auto. now rewrite Rsum_scal.
  - rewrite Rsum_swap. apply Rsum_ext. intros k _. rewrite <- Rsum_scal. apply Rsum_ext. intros wt _. ring.
Qed.

Lemma mixture_impl (P Q : dist -> Prop) t : (forall d, P d -> Q d) -> mixture P t -> mixture Q t.
Proof.
  intros Hi. induction t as [d|l IH|l IH] using pc_ind'; cbn [mixture]; auto. rewrite !fold_and_Forall, !Forall_forall in *. auto.
Qed.
Lemma mixture_leaves P t : mixture P t -> all_leaves P t.
Proof. induction t as [d|l IH|l IH] using pc_ind'; cbn [mixture all_leaves]; auto; [|tauto]. rewrite !fold_and_Forall, !Forall_forall in *. auto. Qed.
Lemma mixture_products P t : mixture P t -> products_nonempty t.
Proof. induction t as [d|l IH|l IH] using pc_ind'; cbn [mixture products_nonempty]; auto; [|tauto]. rewrite !fold_and_Forall, !Forall_forall in *. auto. Qed.

(** Values of the leaves outside a list are zero, so the value of the mixture is. *)
Lemma mixture_zero (f : dist -> R) t : mixture (fun d => f d = 0) t -> semR f t = 0.
Proof.
  induction t as [d|l IH|l IH] using pc_ind'; cbn [mixture semR]; [auto| |tauto]. rewrite fold_and_Forall, !Forall_forall in *.
  intros H. apply Rsum_zero. intros wt Hin. rewrite IH by auto. ring.
Qed.

Lemma wexp_nonneg w : 0 <= wexp w.
Proof. destruct w; simpl; try lra. left. apply exp_pos. Qed.

Lemma mixture_nonneg (f : dist -> R) t : mixture (fun d => 0 <= f d) t -> 0 <= semR f t.
Proof.
  induction t as [d|l IH|l IH] using pc_ind'; cbn [mixture semR]; [auto| |tauto]. rewrite fold_and_Forall, !Forall_forall in *.
  intros H. apply Rsum_nonneg. apply Forall_map, Forall_forall. intros wt Hin. apply Rmult_le_pos; [apply wexp_nonneg|auto].
Qed.

(** ** Variables *)
Section Over.
Variables (b : bool) (v : nat).
Let P := leaf_over b v.

Lemma over_dvar d : P d -> dvar d = v.
Proof. intros [p ->]. now destruct b. Qed.

Lemma over_mentions t : sums_nonempty t -> mixture P t -> forall w, mentions dist_vars t w <-> w = v.
Proof.
  induction t as [d|l IH|l IH] using pc_ind'; cbn [mixture sums_nonempty mentions]; intros Hs Hm w; [| |tauto].
  - unfold dist_vars. rewrite (over_dvar d Hm). simpl. intuition.
  - destruct Hs as [Hne Hs]. rewrite Forall_map_id in Hs; apply fold_and_Forall in Hm. rewrite fold_or_Exists, Exists_exists, !Forall_forall in *. split.
    + intros (wt & Hin & Hw). exact (proj1 (IH wt Hin (Hs wt Hin) (Hm wt Hin) w) Hw).
    + intros ->. destruct l as [|wt l]; [tauto|]. exists wt. split; [now left|]. apply IH; auto; [now left|apply Hs; now left|apply Hm; now left].
Qed.

Lemma over_smooth t : sums_nonempty t -> mixture P t -> smooth dist_vars t.
Proof.
  induction t as [d|l IH|l IH] using pc_ind'; cbn [mixture sums_nonempty smooth]; intros Hs Hm; [auto| |tauto].
  assert (Hv := over_mentions (PSum l) Hs Hm). destruct Hs as [Hne Hs]. rewrite Forall_map_id in Hs; apply fold_and_Forall in Hm. split.
  - intros w Hw. apply Hv in Hw. subst w. apply fold_and_Forall. rewrite Forall_forall in *. intros wt Hin. apply over_mentions; auto.
  - apply fold_and_Forall. rewrite Forall_forall in *. auto.
Qed.

(** ** The support *)
Lemma fold_union l : forall E, fold_left event_union l E = E ++ concat l.
Proof. induction l as [|F l IH]; intros E; simpl; [now rewrite app_nil_r|]. rewrite IH. unfold event_union. now rewrite app_assoc. Qed.

Definition key_of (k : Z) : Z := if b then pyhash k else k.

Lemma Int_part_IZR k : Int_part (IZR k) = k.
Proof.
  unfold Int_part. assert (H : up (IZR k) = (k + 1)%Z); [|lia]. symmetry. apply tech_up; rewrite plus_IZR; lra.
Qed.

Lemma leaf_elements d p : d = discrete_over b v p ->
  flat_map (fun bx => flat_map (fun vA => elements_of (snd vA)) bx) (leaf_event (dvar d) (support1 d)) =
  map (fun k => (elem b k, Some (key_of k))) (map fst (filter (fun kv => Rltb 0 (snd kv)) p)).
Proof.
  intros ->. unfold leaf_event. cbn [flat_map snd]. rewrite !app_nil_r. unfold elem, key_of, discrete_over. destruct b; cbn [support1 elements_of].
  - rewrite !map_map. apply map_ext. intros [k q]. cbn [fst]. unfold isingleton at 2. cbn [lo]. rewrite Int_part_IZR.
    unfold Reqb. destruct (Req_EM_T (IZR k) (IZR k)); congruence.
  - reflexivity.
Qed.

Lemma mixture_support t E : sums_nonempty t -> mixture P t -> tsupp t = Some E ->
  E <> [] /\ exists K, support_elements E = map (fun k => (elem b k, Some (key_of k))) K /\
    (forall k, ~ In k K -> mixture (fun d => forall q, In (k, q) (dprobs d) -> ~ 0 < q) t) /\
    (forall S, all_leaves (fun d => incl (keys (dprobs d)) S) t -> incl K S).
Proof.
  unfold tsupp, support_elements. revert E. induction t as [d|l IH|l IH] using pc_ind'; cbn [mixture sums_nonempty]; intros E Hs Hm HE; [| |tauto].
  - cbn [tev] in HE. unfold dist_support in HE. inversion HE; subst E. split; [discriminate|]. destruct Hm as [p Hd].
    eexists. split; [apply leaf_elements; eauto|]. split.
    + intros k Hk q Hin Hq. apply Hk. apply in_map_iff. exists (k, q). split; auto. apply filter_In. split.
      * subst d. unfold discrete_over in Hin. now destruct b.
      * cbn [snd]. now destruct (Rltb_spec 0 q).
    + intros S HS k Hk. cbn [all_leaves] in HS. apply in_map_iff in Hk. destruct Hk as (kq & <- & Hk). apply filter_In in Hk. apply HS.
      apply in_map. subst d. unfold discrete_over. now destruct b.
  - cbn [tev] in HE. destruct Hs as [Hne Hs]. rewrite Forall_map_id in Hs; apply fold_and_Forall in Hm. destruct (mapM _ l) as [vs|] eqn:M; [|discriminate].
    apply mapM_Forall2 in M.
    assert (G : Forall2 (fun wt wE => fst wE = fst wt /\ snd wE <> [] /\ exists K, 
      flat_map (fun bx => flat_map (fun vA => elements_of (snd vA)) bx) (snd wE) = map (fun k => (elem b k, Some (key_of k))) K /\
      (forall k, ~ In k K -> mixture (fun d => forall q, In (k, q) (dprobs d) -> ~ 0 < q) (snd wt)) /\
      (forall S, all_leaves (fun d => incl (keys (dprobs d)) S) (snd wt) -> incl K S)) l vs).
    { clear HE Hne. induction M as [|wt wE l vs HwE M IHM]; [constructor|]. inversion IH as [|? ? IH1 IH2]; subst.
      inversion Hs as [|? ? Hs1 Hs2]; subst. inversion Hm as [|? ? Hm1 Hm2]; subst. constructor; [|auto].
      destruct (tev dist_support sum_support prod_support (snd wt)) as [F|] eqn:T; [|discriminate]. inversion HwE; subst wE. cbn [fst snd].
      split; auto. }
    clear IH M Hs Hm.
    assert (Hc : E = concat (map snd vs)).
    { unfold sum_support in HE. destruct vs as [|wE vs]; [discriminate|]. inversion HE; subst. rewrite fold_union. reflexivity. }
    split.
    + destruct G as [|wt wE l vs (_ & G1 & _) G]; [tauto|]. subst E. cbn [map concat]. intros H. apply app_eq_nil in H. tauto.
    + subst E. clear HE Hne. induction G as [|wt wE l vs (_ & _ & K & G1 & G2 & G3) G (K' & I1 & I2 & I3)].
      { exists []. cbn. repeat split; auto. intros S _ k []. }
      exists (K ++ K'). cbn [map concat]. split; [rewrite flat_map_app, map_app; f_equal; [exact G1|exact I1]|]. split.
      * intros k Hk. cbn [mixture map fold_right]. rewrite in_app_iff in Hk. split; [apply G2; tauto|apply I2; tauto].
      * intros S HS. cbn [all_leaves map fold_right] in HS. destruct HS as [HS1 HS2]. apply incl_app; auto.
Qed.

(** ** One probability per element *)
Lemma elem_prob d k : P d -> dist_ok d -> evset_ok d (elem b k) /\ probR d (elem b k) = dget (dprobs d) k.
Proof.
  intros [p ->] Hok. assert (Hp : dict_ok p) by (unfold discrete_over in Hok; destruct b; apply Hok).
  assert (Hd : probR (discrete_over b v p) (elem b k) = Rsum (map (fun kv => ind (in_evset (elem b k) (IZR (fst kv))) * snd kv) p))
    by (unfold discrete_over; now destruct b).
  assert (Hi : forall kv : Z * R, in_evset (elem b k) (IZR (fst kv)) = Z.eqb (fst kv) k).
  { intros [a q]. cbn [fst]. unfold elem. destruct b.
    - cbn. unfold in_sint. cbn. unfold Rleb. destruct (Rle_dec (IZR k) (IZR a)) as [H1|H1], (Rle_dec (IZR a) (IZR k)) as [H2|H2]; cbn;
        destruct (Z.eqb_spec a k) as [->|N]; auto; try lra. exfalso. apply N. apply eq_IZR. lra.
    - rewrite in_esym. cbn. apply orb_false_r. }
  split.
  - unfold discrete_over, elem. destruct b; cbn [evset_ok]; [|repeat constructor; simpl; tauto]. split; [|discriminate].
    split; [constructor; [apply isingleton_ok|constructor]|]. cbn. split; [tauto|exact I].
  - rewrite Hd. replace (dprobs (discrete_over b v p)) with p by (unfold discrete_over; now destruct b).
    transitivity (Rsum (map (dget p) [k])); [|cbn; ring]. rewrite Rsum_dget; [|apply Hp|repeat constructor; simpl; tauto].
    apply Rsum_ext. intros kv _. rewrite Hi. cbn [existsb]. now rewrite orb_false_r.
Qed.
End Over.

(** ** The loop *)
Lemma loop_spec b v g (m : Z -> R) K : (forall k, In k K -> answers g (fun _ => elem b k) (m k)) -> (forall k, In k K -> key_of b k = k) ->
  forall p st, NoDup (keys p) -> exists p' st',
    foldM (mixture_entry g v) (map (fun k => (elem b k, Some (key_of b k))) K) (p, st) = Some (p', st') /\ NoDup (keys p') /\
    (forall k, In k K -> dget p' k = m k) /\ (forall k, ~ In k K -> dget p' k = dget p k) /\ (forall k, In k (keys p') -> In k K \/ In k (keys p)).
Proof.
  induction K as [|k K IH]; intros Ha Hk p st Hp; cbn [map foldM].
  - exists p, st. repeat split; auto. intros k [].
  - unfold mixture_entry at 1. cbn [fst snd]. destruct (Ha k (or_introl eq_refl) st) as (st1 & E1). rewrite E1, (Hk k (or_introl eq_refl)).
    destruct (keys_dset p k (m k) Hp) as [N1 N2].
    destruct (IH (fun x Hx => Ha x (or_intror Hx)) (fun x Hx => Hk x (or_intror Hx)) (dset p k (m k)) st1 N1) as (p' & st' & F & N & G1 & G2 & G3).
    exists p', st'. split; [exact F|]. split; [exact N|]. split; [|split].
    + intros x [<-|Hx]; [|auto]. destruct (in_dec Z.eq_dec k K); [auto|]. rewrite G2, dget_dset, Z.eqb_refl by auto. reflexivity.
    + intros x Hx. simpl in Hx. rewrite G2, dget_dset by tauto. destruct (Z.eqb_spec k x); [tauto|reflexivity].
    + intros x Hx. apply G3 in Hx. destruct Hx as [Hx|Hx]; [simpl; tauto|]. apply N2 in Hx. simpl. intuition.
Qed.

Lemma keys_bound t : exists S, NoDup S /\ all_leaves (fun d => incl (keys (dprobs d)) S) t.
Proof.
  enough (exists S, all_leaves (fun d => incl (keys (dprobs d)) S) t) as [S HS].
  { exists (nodup Z.eq_dec S). split; [apply NoDup_nodup|]. eapply all_leaves_impl; [|exact HS]. intros d Hd k Hk. apply nodup_In. now apply Hd. }
  assert (G : forall A (h : A -> pc dist) l, Forall (fun a => exists S, all_leaves (fun d => incl (keys (dprobs d)) S) (h a)) l ->
    exists S, Forall (fun a => all_leaves (fun d => incl (keys (dprobs d)) S) (h a)) l).
  { intros A h l. induction 1 as [|a l [S HS] _ [S' IH]]; [exists []; constructor|]. exists (S ++ S'). constructor.
    - eapply all_leaves_impl; [|exact HS]. intros d Hd k Hk. apply in_app_iff. left. now apply Hd.
    - eapply Forall_impl; [|exact IH]. intros a' Ha'. eapply all_leaves_impl; [|exact Ha']. intros d Hd k Hk. apply in_app_iff. right. now apply Hd. }
  induction t as [d|l IH|l IH] using pc_ind'; cbn [all_leaves].
  - exists (keys (dprobs d)). apply incl_refl.
  - destruct (G _ snd l IH) as [S HS]. exists S. now apply fold_and_Forall.
  - destruct (G _ (fun t => t) l IH) as [S HS]. exists S. now apply fold_and_Forall.
Qed.

(** ** The whole conversion *)
Lemma from_mixture_spec b v g t ste st : layered_circuit g t -> mixture (leaf_over b v) t -> all_leaves dist_ok t -> all_sums (Forall lw_ok) t ->
  (b = true -> all_leaves (fun d => forall k, In k (keys (dprobs d)) -> pyhash k = k) t) ->
  exists p', from_mixture b g ste st = Some (discrete_over b v p') /\ NoDup (keys p') /\ forall k, dget p' k = mass t k.
Proof.
  intros Hl Hm Hok Hw Hh. destruct Hl as (Hwf & Hlt & r & Hr & Hg & Hu). assert (Hs := unfolds_sums_nonempty _ _ _ Hu).
  assert (Hsm := over_smooth b v t Hs Hm). assert (Hl : layered_circuit g t) by (split; [|split; [|exists r]]; auto).
  destruct (circuit_variables_spec dist_vars g r t Hr Hu Hsm) as (vs & Ev & Sv & Mv).
  assert (vs = [v]) as ->.
  { assert (Hin : forall w, In w vs <-> w = v) by (intros w; rewrite Mv; now apply over_mentions with (b := b)).
    destruct vs as [|a vs]; [exfalso; apply (proj2 (Hin v) eq_refl)|]. assert (a = v) by (apply Hin; now left). subst a. f_equal.
    destruct vs as [|c vs]; [reflexivity|]. assert (c = v) by (apply Hin; simpl; auto). subst c. inversion Sv as [|? ? _ HF]; subst.
    inversion HF; subst. lia. }
  destruct (tsupp_defined t Hs (mixture_products _ t Hm)) as [E HE].
  destruct (circuit_support_correct g r t ste E) as (ste' & Es & _); auto.
  destruct (mixture_support b v t E Hs Hm HE) as (Hne & K & EK & Kc & Ks).
  destruct (loop_spec b v g (mass t) K) with (p := [] : dict) (st := st) as (p' & st' & F & N & G1 & G2 & _).
  - intros k _. unfold mass. replace (semR (fun d => dget (dprobs d) k) t) with (semR (fun d => probR d ((fun _ : nat => elem b k) (dvar d))) t).
    + apply answers_semR; auto. unfold event_ok. eapply all_leaves_impl; [|exact (all_leaves_and _ _ _ (mixture_leaves _ _ Hm) Hok)].
      intros d [H1 H2]. now apply (elem_prob b v d k).
    + apply semR_ext. eapply all_leaves_impl; [|exact (all_leaves_and _ _ _ (mixture_leaves _ _ Hm) Hok)].
      intros d [H1 H2]. now apply (elem_prob b v d k).
  - intros k Hk. unfold key_of. destruct b; auto. specialize (Hh eq_refl).
    assert (G : forall S, all_leaves (fun d => incl (keys (dprobs d)) S) t -> True) by auto. clear G.
    destruct (keys_bound t) as (S & _ & HS). 
    assert (HS' : all_leaves (fun d => incl (keys (dprobs d)) (filter (fun k => Z.eqb (pyhash k) k) S)) t).
    { eapply all_leaves_impl; [|exact (all_leaves_and _ _ _ Hh HS)]. simpl. intros d [H1 H2] x Hx. apply filter_In. split; auto. apply Z.eqb_eq. auto. }
    apply (Ks _ HS') in Hk. apply filter_In in Hk. now apply Z.eqb_eq.
  - constructor.
  - exists p'. split; [|split; [exact N|]].
    + unfold from_mixture. rewrite Ev, Es. destruct E as [|bx E]; [tauto|]. rewrite EK. setoid_rewrite F. unfold discrete_over. now destruct b.
    + intros k. destruct (in_dec Z.eq_dec k K) as [Hk|Hk]; [auto|]. rewrite G2 by auto. symmetry. unfold dget at 1. simpl.
      apply mixture_zero. assert (Hz := Kc k Hk). 
      assert (Hboth : mixture (fun d => leaf_over b v d /\ dist_ok d /\ forall q, In (k, q) (dprobs d) -> ~ 0 < q) t).
      { clear -Hm Hok Hz. induction t as [d|l IH|l IH] using pc_ind'; cbn [mixture all_leaves] in *; [auto| |tauto].
        rewrite fold_and_Forall, Forall_forall in *. auto. }
      eapply mixture_impl; [|exact Hboth]. intros d ((p & ->) & Hd & Hq).
      assert (Hp : dict_ok p) by (unfold discrete_over in Hd; destruct b; apply Hd).
      replace (dprobs (discrete_over b v p)) with p in * by (unfold discrete_over; now destruct b).
      destruct (in_dec Z.eq_dec k (keys p)) as [Hin|Hin]; [|now apply dget_absent]. unfold keys in Hin. apply in_map_iff in Hin.
      destruct Hin as ([k' q] & Ek & Hin). simpl in Ek. subst k'. rewrite (dget_In p k q) by (auto; apply Hp).
      specialize (Hq q Hin). destruct Hp as [_ Hv]. rewrite Forall_forall in Hv. assert (0 <= q) by (apply Hv; apply (in_map snd _ _ Hin)). lra.
Qed.

(** Summing with any coefficients: the read-off distribution against the mixture. *)
Lemma read_sum b v t p' (c : Z -> R) : mixture (leaf_over b v) t -> all_leaves dist_ok t -> NoDup (keys p') -> (forall k, dget p' k = mass t k) ->
  semR (fun d => Rsum (map (fun kv => c (fst kv) * snd kv) (dprobs d))) t = Rsum (map (fun kv => c (fst kv) * snd kv) p').
Proof.
  intros Hm Hok N Hd. destruct (keys_bound t) as (S & HS & HSt).
  set (K := nodup Z.eq_dec (S ++ keys p')).
  rewrite (Rsum_entries c p' K N (NoDup_nodup _ _)). 2:{ intros k Hk. apply nodup_In, in_app_iff. now right. }
  transitivity (semR (fun d => Rsum (map (fun k => c k * dget (dprobs d) k) K)) t).
  - apply semR_ext. eapply all_leaves_impl; [|exact (all_leaves_and _ _ _ (all_leaves_and _ _ _ (mixture_leaves _ _ Hm) Hok) HSt)].
    simpl. intros d [[[p ->] H1] H2]. assert (Hp : dict_ok p) by (unfold discrete_over in H1; destruct b; apply H1).
    replace (dprobs (discrete_over b v p)) with p in * by (unfold discrete_over; now destruct b).
    apply Rsum_entries; [apply Hp|apply NoDup_nodup|]. intros k Hk. apply nodup_In, in_app_iff. left. now apply H2.
  - rewrite (mixture_linear (leaf_over b v) c (fun k d => dget (dprobs d) k)) by auto. apply Rsum_ext. intros k _. now rewrite Hd.
Qed.
