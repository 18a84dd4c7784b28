(** * Property C91: the likelihood of a fitted joint probability tree *)
From Coq Require Import List Arith Bool Lia ZArith Reals Lra Permutation.
From Verif Require Import Num Graph GraphFacts Spec SpecFacts Circuit EvalFacts Interval Dist DistFacts LeafCond Support SupportFacts ModeFacts TreeProb Layout LayoutFacts Star
  PropertiesProb PropertiesDist PropertiesSupport Nyga NygaFacts PropertiesNyga Jpt JptFacts PropertiesJpt PropertiesJptModel PropertiesJptFrequency.
Import ListNotations.
Local Set Bullet Behavior "Strict Subproofs".
Local Open Scope R_scope.

(** ** Specification *)

(** The integers of the column are their own hashes: -1 is not. *)
Definition readable (k : jkind) (c : list R) : Prop :=
  match k with KInteger => forall x, In x c -> Dist.pyhash (Int_part x) = Int_part x | _ => True end.
Definition readable_all (vars : list (nat * jkind)) (data : list row) : Prop :=
  forall i v k c, nth_error vars i = Some (v, k) -> column data i = Some c -> readable k c.

(** A continuous column has two different values. *)
Definition varied (k : jkind) (c : list R) : Prop := match k with KContinuous _ _ _ => two_values c | _ => True end.

(** [f] is the density of the column: the portion of the entries for a discrete variable, and a histogram over the range of the column for a continuous one. *)
Definition width (i : sint) : R := match lo i, hi i with Fin a, Fin b => b - a | _, _ => 0 end.
Definition column_density (k : jkind) (c : list R) (f : R -> R) : Prop :=
  match k with
  | KContinuous _ _ _ => exists cells, disjointed cells /\ (forall i, In i cells -> 0 < width i) /\
      (forall y, in_interval cells y = true <-> exists a b, In a c /\ In b c /\ a <= y <= b) /\
      forall y, f y = Rsum (map (fun i => if in_sint i y then portion (in_sint i) c / width i else 0) cells)
  | _ => forall y, f y = portion (fun z => Reqb (meaning k z) y) c
  end.

(** The product of the densities of the single variables, and its average over the groups of the data. *)
Definition independent (vars : list (nat * jkind)) (fs : list (R -> R)) (x : nat -> R) : R := Rprod (map (fun vf => snd vf (x (fst vf))) (combine (map fst vars) fs)).
Definition averaged (vars : list (nat * jkind)) (data : list row) (parts : list (list row * list (R -> R))) (x : nat -> R) : R :=
  Rsum (map (fun p => INR (length (fst p)) / INR (length data) * independent vars (snd p) x) parts).

(** The densities describe the columns of the group. *)
Definition described (vars : list (nat * jkind)) (rows : list row) (fs : list (R -> R)) : Prop :=
  length fs = length vars /\ forall i v k c f, nth_error vars i = Some (v, k) -> column rows i = Some c -> nth_error fs i = Some f -> varied k c -> column_density k c f.
Definition all_varied (vars : list (nat * jkind)) (rows : list row) : Prop := forall i v k c, nth_error vars i = Some (v, k) -> column rows i = Some c -> varied k c.

(** The point [x] stands for the row. *)
Definition stands_for (vars : list (nat * jkind)) (r : row) (x : nat -> R) : Prop :=
  forall i v k, nth_error vars i = Some (v, k) -> exists y, nth_error r i = Some y /\ x v = meaning k y.

(** A row that was seen is possible. *)
Definition C91_full : Prop := forall best j data fuel, let vars := variables_from_init j in
  table_ok vars data -> readable_all vars data -> data <> [] -> respects_contract best (with_total j (length data)) -> depth_limit j ->
  raw_min_samples_leaf j <= INR (length data) -> (2 * length data <= fuel)%nat ->
  exists leaves, fit best (create_leaf_node fuel vars) j fuel data [] = ([], Some leaves) /\
  forall r x, In r data -> stands_for vars r x -> exists L, likelihood_at (circuit_of leaves) x L /\ (L = PInf \/ exists p, L = Fin p /\ 0 < p).

(** ** Proof *)

(** Not zero. *)
Definition able (n : num) : Prop := n = NaN \/ n = PInf \/ exists p, n = Fin p /\ 0 < p.

Lemma able_mul a b : able a -> able b -> able (nmul a b).
Proof.
  intros [->|[->|(p & -> & Hp)]] [->|[->|(q & -> & Hq)]]; cbn; unfold nscale_inf; tot; try lra; unfold able; auto.
  right. right. exists (p * q). split; [reflexivity|]. now apply Rmult_lt_0_compat.
Qed.

Lemma able_prod l : Forall able l -> able (nprod l).
Proof. induction 1; cbn; [right; right; exists 1; split; [reflexivity|lra]|]. now apply able_mul. Qed.

Lemma able_add a b : able a -> nonneg b -> able (nadd a b).
Proof. intros [->|[->|(p & -> & Hp)]] Hb; destruct b; cbn in *; unfold able; auto; try tauto. right. right. eexists. split; [reflexivity|]. lra. Qed.

Lemma able_sum l : Forall nonneg l -> Exists able l -> able (nsum l).
Proof.
  intros Hn He. induction Hn as [|a l Ha Hl IH]; [inversion He|]. change (nsum (a :: l)) with (nadd a (nsum l)). inversion He as [? ? H|? ? H]; subst.
  - apply able_add; [exact H|]. now apply nonneg_sum.
  - rewrite nadd_comm. apply able_add; auto.
Qed.

Lemma Rsum_cons x l : Rsum (x :: l) = x + Rsum l.
Proof. reflexivity. Qed.

Lemma able_R t x : all_leaves dist_ok t -> all_leaves cap_ok t -> all_sums (Forall lw_ok) t -> 0 < likR t x -> able (lik t x).
Proof. intros H1 H2 H3 H. rewrite lik_R by auto. right. right. eauto. Qed.

(** *** One column *)
Lemma dict_density p y : dict_ok p -> match nexp (fold_left (fun acc kv => if Reqb y (IZR (fst kv)) then nlog (Fin (snd kv)) else acc) p NInf) with Fin q => q | _ => 0 end = Rsum (map (fun kv => ind (Reqb (IZR (fst kv)) y) * snd kv) p).
Proof.
  intros [Hn Hp].
  assert (G : forall acc a, nexp acc = Fin a -> 0 <= a -> nexp (fold_left (fun acc kv => if Reqb y (IZR (fst kv)) then nlog (Fin (snd kv)) else acc) p acc) =
    Fin (if existsb (fun kv => Reqb (IZR (fst kv)) y) p then Rsum (map (fun kv => ind (Reqb (IZR (fst kv)) y) * snd kv) p) else a)).
  { induction p as [|[k q] p IH]; intros acc a Ea Ha; cbn [fold_left existsb map fst snd]; [exact Ea|].
    unfold keys, vals in *. cbn [map fst snd] in Hn, Hp. inversion Hn as [|? ? Nk Hn']; subst. inversion Hp as [|? ? Hq Hp']; subst. rewrite Rsum_cons.
    destruct (Reqb_spec y (IZR k)) as [->|Hne].
    - rewrite (IH Hn' Hp' _ q) by (try apply nexp_nlog; exact Hq). destruct (Reqb_spec (IZR k) (IZR k)); [|congruence]. cbn [orb].
      assert (Z : existsb (fun kv => Reqb (IZR (fst kv)) (IZR k)) p = false).
      { destruct (existsb _ p) eqn:X; [|reflexivity]. apply existsb_exists in X. destruct X as ([k' q'] & X1 & X2). cbn [fst] in X2. destruct (Reqb_spec (IZR k') (IZR k)) as [E|]; [|discriminate].
        apply eq_IZR in E. subst k'. exfalso. apply Nk. apply in_map_iff. exists (k, q'). auto. }
      rewrite Z. f_equal. rewrite Rsum_zero; [unfold ind; ring|]. intros [k' q'] Hin. cbn [fst snd]. destruct (Reqb (IZR k') (IZR k)) eqn:X; [|unfold ind; ring].
      exfalso. assert (T : existsb (fun kv => Reqb (IZR (fst kv)) (IZR k)) p = true) by (apply existsb_exists; exists (k', q'); auto). congruence.
    - rewrite (IH Hn' Hp' _ a) by auto. destruct (Reqb_spec (IZR k) y); [congruence|]. cbn [orb]. change (ind false) with 0. rewrite Rmult_0_l, Rplus_0_l. reflexivity. }
  rewrite (G NInf 0) by (cbn; auto; lra). destruct (existsb _ p) eqn:X; [reflexivity|]. symmetry. apply Rsum_zero. intros [k q] Hin. cbn [fst snd]. destruct (Reqb (IZR k) y) eqn:Z; [|unfold ind; ring].
  exfalso. assert (T : existsb (fun kv => Reqb (IZR (fst kv)) y) p = true) by (apply existsb_exists; exists (k, q); auto). congruence.
Qed.

Lemma unif_density v a b c y : a < b -> density (DUnif v (mkSint (Fin a) (Fin b) true c)) y = if in_sint (mkSint (Fin a) (Fin b) true c) y then / (b - a) else 0.
Proof.
  intros L. unfold density. cbn [ll1]. destruct (in_sint _ y); [|reflexivity]. cbn [lo hi]. change (nsub (Fin b) (Fin a)) with (Fin (b - a)).
  unfold nlog. destruct (total_order_T (b - a) 0) as [[T|T]|T]; try lra. cbn [nopp nexp]. now rewrite exp_Ropp, exp_ln by lra.
Qed.

Lemma portion_pos {X} (P : X -> bool) l x : In x l -> P x = true -> 0 < portion P l.
Proof.
  intros Hx Px. unfold portion. apply Rdiv_lt_0_compat; apply lt_0_INR.
  - assert (H : In x (filter P l)) by (apply filter_In; auto). destruct (filter P l); [destruct H|cbn; lia].
  - destruct l; [destruct Hx|cbn; lia].
Qed.

Lemma portion_nonneg {X} (P : X -> bool) l : 0 <= portion P l.
Proof. unfold portion, Rdiv. destruct l; [cbn; lra|]. apply Rmult_le_pos; [apply pos_INR|]. left. apply Rinv_0_lt_compat, lt_0_INR. cbn. lia. Qed.

(** What was seen has a positive density, and none is negative. *)
Lemma column_density_nonneg k c f y : column_density k c f -> 0 <= f y.
Proof.
  destruct k; cbn [column_density].
  - intros (cells & _ & W & _ & ->). apply Rsum_nonneg, Forall_map, Forall_forall. intros i Hi. destruct (in_sint i y); [|lra]. apply Rmult_le_pos; [apply portion_nonneg|]. left. apply Rinv_0_lt_compat. auto.
  - intros ->. apply portion_nonneg.
  - intros ->. apply portion_nonneg.
Qed.

Lemma column_density_pos k c f z : column_density k c f -> In z c -> 0 < f (meaning k z).
Proof.
  destruct k; cbn [column_density meaning].
  - intros (cells & _ & W & C & ->) Hz. assert (H : in_interval cells z = true) by (apply C; exists z, z; repeat split; auto; lra). apply existsb_exists in H. destruct H as (i & Hi & Hz').
    apply Rsum_nonneg_pos.
    + apply Forall_map, Forall_forall. intros j Hj. destruct (in_sint j z); [|lra]. apply Rmult_le_pos; [apply portion_nonneg|]. left. apply Rinv_0_lt_compat. auto.
    + apply Exists_exists. exists (portion (in_sint i) c / width i). split; [apply in_map_iff; exists i; rewrite Hz'; auto|]. apply Rdiv_lt_0_compat; [|auto]. eapply portion_pos; eauto.
  - intros -> Hz. eapply portion_pos; [exact Hz|]. destruct (Reqb_spec (IZR (hash (Int_part z))) (IZR (hash (Int_part z)))); auto.
  - intros -> Hz. eapply portion_pos; [exact Hz|]. destruct (Reqb_spec (IZR (Int_part z)) (IZR (Int_part z))); auto.
Qed.

Definition marginal_density (u : pc dist) (y : R) : R := semR (fun d => density d y) u.

Lemma column_lik fuel v k c u : c <> [] -> column_ok k c -> readable k c -> (2 * length c <= fuel)%nat -> fit_column fuel v k c = Some u ->
  all_leaves (fun d => dvar d = v) u /\ (varied k c -> all_leaves cap_ok u /\ column_density k c (marginal_density u)) /\
  (varied k c \/ exists y, In y c /\ (forall z, In z c -> z = y) /\ (forall z, meaning k z = z) /\ u = PLeaf (DDirac v y PInf)).
Proof.
  intros Hne Hok Hr Hf E. destruct k as [md imp q|h|]; cbn [fit_column column_ok readable varied column_density] in *.
  - destruct Hok as [Hq Himp]. destruct (one_value c Hne) as [H2|(y & Ey & Hy)].
    + destruct (C40_nyga_partial log_likelihood_without_split log_likelihood_of_split v q imp c Hq Himp H2) as (leaves & Q & Ft). unfold Nyga.fit in E. rewrite (Ft fuel Hf) in E.
      unfold mixture_of in E. set (l := map _ leaves) in E.
      assert (Hl : l <> []). { intros X. apply map_eq_nil in X. pose proof (q_total _ _ _ _ Q) as T. rewrite X in T. cbn in T. lra. }
      rewrite (nyga_root_star l Hl) in E. injection E as <-. split; [|split; [intros _; split|now left]].
      * apply star_leaves. unfold l. apply Forall_map, Forall_forall. reflexivity.
      * apply star_leaves. unfold l. apply Forall_map, Forall_forall. intros; exact I.
      * exists (map snd leaves). split; [apply (q_disjoint _ _ _ _ Q)|]. split; [|split; [apply (q_cover _ _ _ _ Q)|]].
        -- intros i Hi. apply in_map_iff in Hi. destruct Hi as (wi & <- & Hwi). destruct (q_proper _ _ _ _ Q wi Hwi) as (a & b & cl & -> & Hab). unfold width. cbn. lra.
        -- intros y. unfold marginal_density. rewrite star_semR. unfold l. rewrite !map_map. apply Rsum_ext. intros wi Hwi. cbn [fst snd]. destruct (q_weights _ _ _ _ Q wi Hwi) as [W1 W2].
           rewrite (proj2 (ModeFacts.wexp_nlog (fst wi) (Rlt_le _ _ W1))), W2. unfold frequency. assert (Fa : filter (fun _ : R => true) c = c) by (clear; induction c as [|x c IH]; cbn; congruence). rewrite Fa. fold (portion (in_sint (snd wi)) c).
           destruct (q_proper _ _ _ _ Q wi Hwi) as (a & b & cl & Ei & Hab). rewrite Ei, unif_density by exact Hab. unfold width. cbn [lo hi]. destruct (in_sint _ y); unfold Rdiv; ring.
    + unfold Nyga.fit, fit_with in E. rewrite Ey in E. injection E as <-.
      assert (U : forall z, In z c -> z = y) by (intros z Hz; assert (X : In z [y]) by (rewrite <- Ey; now apply unique_In); destruct X as [<-|[]]; reflexivity).
      split; [reflexivity|]. split; [|right; exists y; auto]. intros (a & b & Ha & Hb & Hab). destruct Hab. now rewrite (U a), (U b).
  - injection E as <-. split; [reflexivity|]. split; [|now left]. intros _. split; [exact I|]. intros y. unfold marginal_density, density. cbn [semR ll1].
    assert (HI : forall x z, In x (map Int_part c) -> In z (map Int_part c) -> h x = h z -> x = z).
    { intros x z Hx Hz. apply in_map_iff in Hx, Hz. destruct Hx as (x' & <- & Hx), Hz as (z' & <- & Hz). auto. }
    assert (Hc : map Int_part c <> []) by (destruct c; [contradiction|discriminate]).
    rewrite dict_density by now apply dfit_ok. rewrite (dfit_portion h (map Int_part c) (fun z => Reqb (IZR z) y)) by auto. apply portion_map.
  - injection E as <-. split; [reflexivity|]. split; [|now left]. intros _. split; [exact I|]. intros y. unfold marginal_density, density. cbn [semR ll1].
    assert (HI : forall x z, In x (map Int_part c) -> In z (map Int_part c) -> Dist.pyhash x = Dist.pyhash z -> x = z).
    { intros x z Hx Hz. apply in_map_iff in Hx, Hz. destruct Hx as (x' & <- & Hx), Hz as (z' & <- & Hz). rewrite !Hr by auto. auto. }
    assert (Hc : map Int_part c <> []) by (destruct c; [contradiction|discriminate]).
    rewrite dict_density by now apply dfit_ok. rewrite (dfit_portion Dist.pyhash (map Int_part c) (fun z => Reqb (IZR z) y)) by auto. rewrite portion_map. apply portion_ext. intros x Hx. now rewrite Hr.
Qed.

(** *** One leaf *)
Lemma mapM_indexed {A B} (f : nat * A -> option B) l : forall k us, mapM f (combine (seq k (length l)) l) = Some us ->
  length us = length l /\ forall i a, nth_error l i = Some a -> exists u, nth_error us i = Some u /\ f ((k + i)%nat, a) = Some u.
Proof.
  unfold mapM. induction l as [|a l IH]; intros k us E; cbn [length seq combine] in E; [injection E as <-; split; [reflexivity|]; intros [|i] b Hb; discriminate|].
  destruct (f (k, a)) as [u|] eqn:Ef; [|discriminate]. match type of E with match ?X with _ => _ end = _ => destruct X as [us'|] eqn:Em; [|discriminate] end. injection E as <-. destruct (IH _ _ Em) as (I1 & I2).
  split; [cbn; now rewrite I1|]. intros [|i] b Hb; cbn in Hb.
  - injection Hb as <-. exists u. rewrite Nat.add_0_r. auto.
  - destruct (I2 i b Hb) as (w & W1 & W2). exists w. split; [exact W1|]. now rewrite <- Nat.add_succ_comm.
Qed.

Lemma Forall_nth_error {A} (P : A -> Prop) l : (forall i a, nth_error l i = Some a -> P a) -> Forall P l.
Proof. intros H. apply Forall_forall. intros a Ha. apply In_nth_error in Ha. destruct Ha as (i & Hi). eauto. Qed.

Lemma create_lik fuel vars data rows u : table_ok vars data -> readable_all vars data -> rows <> [] -> incl rows data -> (2 * length rows <= fuel)%nat ->
  create_leaf_node fuel vars rows = Some u ->
  exists fs, described vars rows fs /\ (all_varied vars rows -> all_leaves cap_ok u /\ forall x, likR u x = independent vars fs x) /\
  forall r x, In r rows -> stands_for vars r x -> able (lik u x).
Proof.
  intros Ht Hread Hne Hin Hf E. assert (V : valid_over (map fst vars) u) by (destruct (create_valid fuel vars data rows Ht Hne Hin Hf) as (u' & E' & V & _); congruence).
  destruct Ht as (HN & HL & HC). unfold create_leaf_node in E.
  assert (HLr : Forall (fun r : row => length r = length vars) rows) by (rewrite Forall_forall in *; auto).
  destruct (mapM _ _) as [us|] eqn:Em; [|discriminate]. injection E as <-. destruct (mapM_indexed _ vars 0%nat us Em) as (Lu & Nu). cbn [Nat.add fst snd] in Nu.
  assert (K : forall i v k, nth_error vars i = Some (v, k) -> exists c u, column rows i = Some c /\ nth_error us i = Some u /\ all_leaves (fun d => dvar d = v) u /\
    (varied k c -> all_leaves cap_ok u /\ column_density k c (marginal_density u)) /\ (varied k c \/ exists y, In y c /\ (forall z, In z c -> z = y) /\ (forall z, meaning k z = z) /\ u = PLeaf (DDirac v y PInf))).
  { intros i v k Hi. destruct (Nu i (v, k) Hi) as (u & U1 & U2). cbn [fst snd] in U2. destruct (column rows i) as [c|] eqn:Ec; [|discriminate]. exists c, u. split; [reflexivity|]. split; [exact U1|].
    assert (Hlt : (i < length vars)%nat) by (apply nth_error_Some; congruence).
    destruct (column_total data i _ HL Hlt) as (cd & Ecd). destruct (column_In _ _ _ Ec) as [Lc Ic]. destruct (column_In _ _ _ Ecd) as [_ Icd].
    assert (Hic : incl c cd) by (intros x Hx; apply Ic in Hx; destruct Hx as (r & Hr & E1); apply Icd; eauto).
    apply (column_lik fuel v k c u); auto.
    - intros ->. destruct rows; [contradiction|discriminate].
    - eapply column_ok_incl; [exact Hic|]. eapply HC; eauto.
    - specialize (Hread i v k cd Hi Ecd). destruct k; cbn [readable] in *; auto.
    - rewrite Lc. exact Hf. }
  assert (M : forall x, map (fun u => likR u x) us = map (fun vf => snd vf (x (fst vf))) (combine (map fst vars) (map marginal_density us))).
  { intros x. assert (F2 : Forall2 (fun vk u => all_leaves (fun d => dvar d = fst vk) u) vars us).
    { clear - Lu K. assert (K' : forall i v k, nth_error vars i = Some (v, k) -> exists u, nth_error us i = Some u /\ all_leaves (fun d => dvar d = v) u) by (intros i v k Hi; destruct (K i v k Hi) as (c & u & _ & ? & ? & _); eauto). clear K.
      revert us Lu K'. induction vars as [|[v k] l IH]; intros [|u us] Lu K; try discriminate; constructor.
      - destruct (K 0%nat v k eq_refl) as (u' & U1 & U2). injection U1 as <-. exact U2.
      - apply IH; [cbn in Lu; lia|]. intros i w kw Hi. apply (K (S i) w kw Hi). }
    clear -F2. induction F2 as [|vk u l us H F2 IH]; [reflexivity|]. cbn [map combine fst snd]. rewrite IH. f_equal. unfold likR, marginal_density. apply semR_ext. eapply all_leaves_impl; [|exact H]. intros d ->. reflexivity. }
  exists (map marginal_density us). split; [|split].
  - split; [rewrite map_length; exact Lu|]. intros i v k c f Hi Hc Hfi Hv. destruct (K i v k Hi) as (c' & u & C1 & C2 & _ & C3 & _). rewrite C1 in Hc. injection Hc as <-.
    rewrite nth_error_map, C2 in Hfi. injection Hfi as <-. now apply C3.
  - intros Hv. split.
    + cbn [all_leaves]. apply fold_and_Forall, Forall_nth_error. intros i u Hu. destruct (nth_error vars i) as [[v k]|] eqn:Ei; [|apply nth_error_None in Ei; assert (nth_error us i = None) by (apply nth_error_None; lia); congruence].
      destruct (K i v k Ei) as (c & u' & C1 & C2 & _ & C3 & _). assert (u' = u) as -> by congruence. apply C3. eapply Hv; eauto.
    + intros x. unfold likR at 1. cbn [semR]. unfold independent. rewrite <- M. reflexivity.
  - intros r x Hr Hx. unfold lik. cbn [semN]. apply able_prod, Forall_map, Forall_nth_error. intros i u Hu.
    destruct (nth_error vars i) as [[v k]|] eqn:Ei; [|apply nth_error_None in Ei; assert (nth_error us i = None) by (apply nth_error_None; lia); congruence].
    destruct (K i v k Ei) as (c & u' & C1 & C2 & C3 & C4 & C5). assert (u' = u) as -> by congruence. destruct (Hx i v k Ei) as (y & Y1 & Y2). destruct (column_In _ _ _ C1) as [_ Ic]. assert (Hy : In y c) by (apply Ic; eauto).
    destruct C5 as [Hv|(y' & _ & Uy & Mk & ->)].
    + destruct (C4 Hv) as (C6 & C7). apply (able_R u x).
      * pose proof (o_leaves _ _ V) as O. cbn [all_leaves] in O. apply fold_and_Forall in O. rewrite Forall_forall in O. apply O. eapply nth_error_In; eauto.
      * exact C6.
      * pose proof (normalised_lw_ok _ (o_normalised _ _ V)) as O. cbn [all_sums] in O. apply fold_and_Forall in O. rewrite Forall_forall in O. apply O. eapply nth_error_In; eauto.
      * replace (likR u x) with (marginal_density u (meaning k y)); [eapply column_density_pos; eauto|]. unfold likR, marginal_density. apply semR_ext. eapply all_leaves_impl; [|exact C3]. cbn. intros d ->. now rewrite Y2.
    + cbn [semN dvar ll1]. rewrite Y2, Mk, (Uy y Hy). destruct (Reqb_spec y' y'); [|congruence]. right. now left.
Qed.

(** *** The tree *)
Lemma collect {A B} (P : A -> B -> Prop) l : (forall a, In a l -> exists b, P a b) -> exists bs, Forall2 P l bs.
Proof.
  induction l as [|a l IH]; intros H; [exists []; constructor|]. destruct (H a) as (b & Hb); [now left|]. destruct IH as (bs & Hbs); [intros; apply H; now right|]. exists (b :: bs). now constructor.
Qed.

(** The likelihood of a point is the average over groups of the data of the product of the densities of the columns, if no continuous column of a group is
    constant.  In any case the likelihood of a row of the data is never zero; it can be NaN ([C91_refuted]). *)
Theorem C91_likelihood_partial best j data fuel : let vars := variables_from_init j in
  table_ok vars data -> readable_all vars data -> data <> [] -> respects_contract best (with_total j (length data)) -> depth_limit j ->
  raw_min_samples_leaf j <= INR (length data) -> (2 * length data <= fuel)%nat ->
  exists leaves parts, fit best (create_leaf_node fuel vars) j fuel data [] = ([], Some leaves) /\
  Permutation (concat (map fst parts)) data /\ (forall p, In p parts -> fst p <> [] /\ described vars (fst p) (snd p)) /\
  ((forall p, In p parts -> all_varied vars (fst p)) -> forall x, likelihood_at (circuit_of leaves) x (Fin (averaged vars data parts x))) /\
  forall r x, In r data -> stands_for vars r x -> exists L, likelihood_at (circuit_of leaves) x L /\ (L = NaN \/ L = PInf \/ exists p, L = Fin p /\ 0 < p).
Proof.
  intros vars Ht Hread Hne Hb Hd Hm Hf. destruct (C61_jpt_valid best j data fuel Ht Hne Hb Hd Hm Hf) as (leaves & E & L & V).
  destruct (C42_jpt_partition_partial best (create_leaf_node fuel vars) j data) as (leaves' & E' & T); auto.
  { intros rows H1 H2 H3. destruct (create_valid fuel vars data rows Ht H1 H2) as (u & Eu & _); [lia|eauto]. }
  assert (leaves' = leaves) as -> by (rewrite E' in E by exact Hf; now injection E).
  assert (N0 : 0 < INR (length data)) by (apply lt_0_INR; destruct data; [contradiction|cbn; lia]).
  set (rows_of := fun l => map (at_index data) (l_samples l)).
  assert (HPr : Permutation (concat (map rows_of leaves)) data).
  { unfold rows_of. rewrite <- (map_map l_samples (map (at_index data))), <- concat_map. rewrite <- (all_indices data) at 2. apply Permutation_map. apply (t_samples _ _ _ _ T). }
  assert (Hrn : forall l, In l leaves -> rows_of l <> []) by (intros l Hl X; apply map_eq_nil in X; exact (t_some _ _ _ _ T l Hl X)).
  assert (U : forall l, In l leaves -> exists fs, described vars (rows_of l) fs /\ (all_varied vars (rows_of l) -> all_leaves cap_ok (l_unit l) /\ forall x, likR (l_unit l) x = independent vars fs x) /\
    forall r x, In r (rows_of l) -> stands_for vars r x -> able (lik (l_unit l) x)).
  { intros l Hl. destruct (t_units _ _ _ _ T l Hl) as (rows & E1 & E2). destruct (fetched data _ _ E1) as [L1 I1]. unfold rows_of. rewrite <- (fetch_map _ _ _ E1).
    assert (HP := Permutation_length (t_samples _ _ _ _ T)). rewrite seq_length in HP.
    assert (HLl : (length (l_samples l) <= length data)%nat).
    { rewrite <- HP. destruct (in_split _ _ Hl) as (l1 & l2 & ->). rewrite map_app, concat_app, app_length. cbn [map concat]. rewrite app_length. lia. }
    apply (create_lik fuel vars data rows (l_unit l)); auto; [|lia]. intros ->. apply (t_some _ _ _ _ T l Hl). now destruct (l_samples l). }
  destruct (collect _ _ U) as (fss & F2). exists leaves, (combine (map rows_of leaves) fss).
  assert (Lf : length leaves = length fss) by (clear -F2; induction F2; cbn; auto).
  assert (M1 : map fst (combine (map rows_of leaves) fss) = map rows_of leaves).
  { clear -Lf. revert fss Lf. induction leaves as [|l ls IH]; intros [|f fs] Lf; try discriminate; [reflexivity|]. cbn [map combine fst]. f_equal. apply IH. cbn in Lf. lia. }
  assert (W : forall l, In l leaves -> 0 < INR (length (rows_of l)) / INR (length data) /\ l_weight l = Fin (ln (INR (length (rows_of l)) / INR (length data)))).
  { intros l Hl. assert (P : 0 < INR (length (rows_of l)) / INR (length data)). { apply Rdiv_lt_0_compat; [|exact N0]. apply lt_0_INR. pose proof (Hrn l Hl). destruct (rows_of l); [contradiction|cbn; lia]. }
    split; [exact P|]. rewrite (t_weights _ _ _ _ T l Hl). unfold rows_of in *. rewrite map_length in *. unfold nlog. destruct (total_order_T _ 0) as [[Z|Z]|Z]; try lra. reflexivity. }
  destruct V as [V1 V2 V3 V4 V5]. split; [exact E|]. split; [rewrite M1; exact HPr|]. split; [|split].
  - intros [rows fs] Hp. cbn [fst snd]. clear - F2 Hp Hrn. induction F2 as [|l fs' ls fss (D & _) F2 IH]; [destruct Hp|]. cbn [map combine] in Hp. destruct Hp as [X|Hp]; [injection X as <- <-; split; [apply Hrn; now left|exact D]|].
    apply IH; [intros; apply Hrn; now right|exact Hp].
  - intros Hv x.
    assert (Hv' : forall l, In l leaves -> all_varied vars (rows_of l)).
    { intros l Hl. assert (X : In (rows_of l) (map fst (combine (map rows_of leaves) fss))) by (rewrite M1; now apply in_map). apply in_map_iff in X. destruct X as (p & <- & Hp). auto. }
    assert (C : all_leaves cap_ok (tree_of_leaves leaves)).
    { unfold tree_of_leaves. cbn [all_leaves]. rewrite map_map. apply fold_and_Forall, Forall_forall. intros l Hl. destruct (U l Hl) as (fs & _ & X & _). now apply X, Hv'. }
    assert (Q : averaged vars data (combine (map rows_of leaves) fss) x = likR (tree_of_leaves leaves) x).
    { unfold averaged, likR, tree_of_leaves. cbn [semR]. rewrite map_map. cbn [fst snd]. clear - F2 Hv' W. induction F2 as [|l fs ls fss (_ & D & _) F2 IH]; [reflexivity|]. cbn [map combine fst snd]. rewrite !Rsum_cons.
      rewrite IH by (intros; first [apply Hv'; now right|apply W; now right]). f_equal. destruct (W l (or_introl eq_refl)) as [W1 W2]. rewrite W2. cbn [wexp]. rewrite exp_ln by exact W1. f_equal. symmetry. now apply D, Hv', or_introl. }
    rewrite Q, <- lik_R by auto using normalised_lw_ok. now apply likelihood_at_lik.
  - intros r x Hr Hx. exists (lik (tree_of_leaves leaves) x). split; [now apply likelihood_at_lik|]. apply (Permutation_in _ (Permutation_sym HPr)), in_concat in Hr. destruct Hr as (g & Hg & Hr). apply in_map_iff in Hg. destruct Hg as (l & <- & Hl).
    unfold lik, tree_of_leaves. cbn [semN]. rewrite map_map. cbn [fst snd]. apply able_sum.
    + apply Forall_map, Forall_forall. intros l' _. apply nonneg_mul; [apply nexp_nonneg|apply SupportFacts.lik_nonneg].
    + apply Exists_exists. eexists. split; [apply in_map_iff; exists l; split; [reflexivity|exact Hl]|]. destruct (U l Hl) as (fs & _ & _ & X). apply able_mul; [|exact (X r x Hr Hx)].
      rewrite (proj2 (W l Hl)). cbn [nexp]. right. right. eexists. split; [reflexivity|]. apply exp_pos.
Qed.
Print Assumptions C91_likelihood_partial.

(** Without continuous variables every row of the data is possible, and all likelihoods are given by frequencies. *)
Theorem C91_discrete_partial best j data fuel : let vars := variables_from_init j in
  (forall i v k, nth_error vars i = Some (v, k) -> match k with KContinuous _ _ _ => False | _ => True end) ->
  table_ok vars data -> readable_all vars data -> data <> [] -> respects_contract best (with_total j (length data)) -> depth_limit j ->
  raw_min_samples_leaf j <= INR (length data) -> (2 * length data <= fuel)%nat ->
  exists leaves parts, fit best (create_leaf_node fuel vars) j fuel data [] = ([], Some leaves) /\
  Permutation (concat (map fst parts)) data /\
  (forall rows fs i v k c f, In (rows, fs) parts -> nth_error vars i = Some (v, k) -> column rows i = Some c -> nth_error fs i = Some f -> forall y, f y = portion (fun z => Reqb (meaning k z) y) c) /\
  (forall x, likelihood_at (circuit_of leaves) x (Fin (averaged vars data parts x))) /\
  forall r x, In r data -> stands_for vars r x -> 0 < averaged vars data parts x.
Proof.
  intros vars Hk Ht Hread Hne Hb Hd Hm Hf. destruct (C61_jpt_valid best j data fuel Ht Hne Hb Hd Hm Hf) as (lv & E0 & L0 & V0). destruct (C91_likelihood_partial best j data fuel Ht Hread Hne Hb Hd Hm Hf) as (leaves & parts & E & HP & HD & HL & HS). fold vars in E, HD, HL, HS.
  assert (VA : forall i v k c, nth_error vars i = Some (v, k) -> varied k c) by (intros i v k c Hi; specialize (Hk i v k Hi); destruct k; cbn; tauto).
  assert (A : forall x, likelihood_at (circuit_of leaves) x (Fin (averaged vars data parts x))) by (apply HL; intros p _ i v k c Hi _; eauto).
  exists leaves, parts. split; [exact E|]. split; [exact HP|]. split; [|split; [exact A|]].
  - intros rows fs i v k c f Hp Hi Hc Hfi. destruct (HD _ Hp) as (_ & _ & D). specialize (D i v k c f Hi Hc Hfi (VA i v k c Hi)). specialize (Hk i v k Hi). destruct k; [contradiction|exact D|exact D].
  - intros r x Hr Hx. destruct (HS r x Hr Hx) as (L & HL1 & HL2). assert (EL : L = Fin (averaged vars data parts x)).
    { destruct (HL1 empty_store) as (vs & ll & s & H1 & H2 & H3). destruct (A x empty_store) as (vs' & ll' & s' & H1' & H2' & H3'). congruence. }
    rewrite EL in HL2. destruct HL2 as [X|[X|(p & X & Hp)]]; try discriminate. injection X as <-. exact Hp.
Qed.
Print Assumptions C91_discrete_partial.

(** *** Constant columns *)
Definition twins : jpt := init [(1%nat, KContinuous 1 0 1); (2%nat, KContinuous 1 0 1)] None None 1 0 PInf PInf None.

Lemma twins_ok : table_ok (variables_from_init twins) [[3; 5]; [3; 6]] /\ readable_all (variables_from_init twins) [[3; 5]; [3; 6]] /\ respects_contract cut_first (with_total twins 2) /\ depth_limit twins /\ raw_min_samples_leaf twins <= INR 2.
Proof.
  split; [split; [|split]|split; [|split; [|split]]].
  - cbn. repeat constructor; cbn; intuition discriminate.
  - cbn. repeat constructor.
  - intros i v k c Hi _. destruct i as [|[|i]]; cbn in Hi; [| |destruct i; discriminate]; injection Hi as <- <-; cbn [column_ok]; split; [lia|lra|lia|lra].
  - intros i v k c Hi _. destruct i as [|[|i]]; cbn in Hi; [| |destruct i; discriminate]; injection Hi as <- <-; exact I.
  - now apply cut_first_contract.
  - left. reflexivity.
  - cbn. lra.
Qed.

Lemma twins_fit fuel : (4 <= fuel)%nat -> fit cut_first (create_leaf_node fuel (variables_from_init twins)) twins fuel [[3; 5]; [3; 6]] [] =
  ([], Some [mkLeaf (nlog (Fin (INR 1 / INR 2))) (PProd [PLeaf (DDirac 1 3 PInf); PLeaf (DDirac 2 5 PInf)]) [0%nat] 1; mkLeaf (nlog (Fin (INR 1 / INR 2))) (PProd [PLeaf (DDirac 1 3 PInf); PLeaf (DDirac 2 6 PInf)]) [1%nat] 1]).
Proof.
  intros Hf.
  assert (D : forall v z, fit_column fuel v (KContinuous 1 0 1) [z] = Some (PLeaf (DDirac v z PInf))) by (intros v z; apply (C62_dirac_partial fuel v 1 0 1%nat z 0)).
  assert (C : forall a b, create_leaf_node fuel (variables_from_init twins) [[a; b]] = Some (PProd [PLeaf (DDirac 1 a PInf); PLeaf (DDirac 2 b PInf)])).
  { intros a b. unfold create_leaf_node. cbn [twins init sorted_by fold_right sort_insert set_targets_and_features variables_from_init map fst Nat.leb length seq combine snd column mapM nth_error]. now rewrite !D. }
  assert (M : min_samples_leaf (with_total twins 2) = 1) by (unfold min_samples_leaf; change (raw_min_samples_leaf (with_total twins 2)) with 1; unfold Rltb; destruct (Rlt_dec 1 1); [lra|reflexivity]).
  unfold fit. cbn [app length]. destruct fuel as [|[|[|fuel]]]; try lia. cbn [fit_loop]. unfold c45 at 1. cbn [i_data i_start i_end i_depth Nat.sub]. rewrite M.
  assert (R1 : Rltb (INR 2) (2 * 1) = false) by (unfold Rltb; destruct (Rlt_dec (INR 2) (2 * 1)) as [H|]; [cbn in H; lra|reflexivity]).
  assert (R2 : Rltb (INR 1) (2 * 1) = true) by (unfold Rltb; destruct (Rlt_dec (INR 1) (2 * 1)) as [|H]; [reflexivity|cbn in H; lra]).
  change (max_depth (with_total twins 2)) with PInf. change (ngeb (Fin (INR 0)) PInf) with false. rewrite R1. cbn [orb cut_first Nat.sub Nat.eqb]. change (min_impurity_improvement (with_total twins 2)) with 0.
  assert (N1 : nleb (Fin 1) (Fin 0) = false) by (cbn [nleb]; unfold Rleb; destruct (Rle_dec 1 0); [lra|reflexivity]). rewrite N1. cbn [app Nat.add].
  unfold c45 at 1. cbn [i_data i_start i_end i_depth Nat.sub]. rewrite M, R2. rewrite orb_true_r. cbn [nleb]. change (mapM (nth_error [[3; 5]; [3; 6]]) (slice (seq 0 2) 0 1)) with (Some [[3; 5]]). cbv iota. rewrite C. cbn [length Nat.eqb app].
  unfold c45 at 1. cbn [i_data i_start i_end i_depth Nat.sub]. rewrite M, R2. rewrite orb_true_r. cbn [nleb]. change (mapM (nth_error [[3; 5]; [3; 6]]) (slice (seq 0 2) 1 2)) with (Some [[3; 6]]). cbv iota. rewrite C. cbn [length Nat.eqb app].
  destruct fuel; reflexivity.
Qed.

Theorem C91_refuted : ~ C91_full.
Proof.
  intros F. destruct twins_ok as (T & Rd & B & D & M). destruct (F cut_first twins [[3; 5]; [3; 6]] 4%nat T Rd) as (leaves & E & H); auto; [discriminate|].
  destruct (C61_jpt_valid cut_first twins [[3; 5]; [3; 6]] 4%nat T) as (leaves' & E' & L & V); auto; [discriminate|]. rewrite E in E'. injection E' as <-. rewrite twins_fit in E by lia. injection E as <-.
  destruct (H [3; 5] (fun v => if (v =? 1)%nat then 3 else 5)) as (N & HN & P).
  - now left.
  - intros i v k Hi. destruct i as [|[|i]]; cbn in Hi; [| |destruct i; discriminate]; injection Hi as <- <-; cbn; eauto.
  - apply (likelihood_at_det _ _ _ _ L (o_smooth _ _ V)) in HN.
    assert (X : N = NaN).
    { rewrite HN. unfold lik, tree_of_leaves. cbn [map semN l_weight l_unit fst snd dvar ll1 Nat.eqb].
      destruct (Reqb_spec 3 3); [|lra]. destruct (Reqb_spec 5 5); [|lra]. destruct (Reqb_spec 5 6); [lra|]. change (nexp (nlog PInf)) with PInf. change (nexp NInf) with (Fin 0).
      assert (Z : nprod [PInf; Fin 0] = NaN). { cbn. unfold nscale_inf. destruct (total_order_T (0 * 1) 0) as [[A|A]|A]; try lra. reflexivity. }
      rewrite Z. set (w := nexp _). set (p := nprod _). change (nsum [nmul w p; nmul w NaN]) with (nadd (nmul w p) (nadd (nmul w NaN) (Fin 0))). destruct (nmul w p), w; reflexivity. }
    rewrite X in P. destruct P as [P|(p & P & _)]; discriminate P.
Qed.
Print Assumptions C91_refuted.

(** Two rows over two integers: both are possible. *)
Example C91_case : let j := init [(1%nat, KInteger); (2%nat, KInteger)] None None 1 0 PInf PInf None in
  exists leaves parts, fit cut_first (create_leaf_node 4 (variables_from_init j)) j 4 [[3; 5]; [4; 6]] [] = ([], Some leaves) /\
  (forall x, likelihood_at (circuit_of leaves) x (Fin (averaged (variables_from_init j) [[3; 5]; [4; 6]] parts x))) /\
  0 < averaged (variables_from_init j) [[3; 5]; [4; 6]] parts (fun v => if (v =? 1)%nat then 3 else 5).
Proof.
  intros j. destruct (C91_discrete_partial cut_first j [[3; 5]; [4; 6]] 4%nat) as (leaves & parts & E & _ & _ & A & P).
  - intros i v k Hi. destruct i as [|[|i]]; cbn in Hi; [| |destruct i; discriminate]; injection Hi as <- <-; exact I.
  - split; [|split].
    + cbn. repeat constructor; cbn; intuition discriminate.
    + cbn. repeat constructor.
    + intros i v k c Hi Hc. destruct i as [|[|i]]; cbn in Hi; [| |destruct i; discriminate]; injection Hi as <- <-; cbn in Hc; injection Hc as <-; cbn [column_ok].
      * intros x y [<-|[<-|[]]] [<-|[<-|[]]]; rewrite ?(Int_part_IZR 3), ?(Int_part_IZR 4); vm_compute; auto; discriminate.
      * intros x y [<-|[<-|[]]] [<-|[<-|[]]]; rewrite ?(Int_part_IZR 5), ?(Int_part_IZR 6); vm_compute; auto; discriminate.
  - intros i v k c Hi Hc. destruct i as [|[|i]]; cbn in Hi; [| |destruct i; discriminate]; injection Hi as <- <-; cbn in Hc; injection Hc as <-; cbn [readable].
    + intros x [<-|[<-|[]]]; rewrite ?(Int_part_IZR 3), ?(Int_part_IZR 4); reflexivity.
    + intros x [<-|[<-|[]]]; rewrite ?(Int_part_IZR 5), ?(Int_part_IZR 6); reflexivity.
  - discriminate.
  - now apply cut_first_contract.
  - left. reflexivity.
  - cbn. lra.
  - cbn. lia.
  - exists leaves, parts. split; [exact E|]. split; [exact A|]. apply (P [3; 5]); [now left|]. intros i v k Hi. destruct i as [|[|i]]; cbn in Hi; [| |destruct i; discriminate]; injection Hi as <- <-; cbn [nth_error].
    + exists 3. split; [reflexivity|]. cbn [Nat.eqb meaning]. now rewrite (Int_part_IZR 3).
    + exists 5. split; [reflexivity|]. cbn [Nat.eqb meaning]. now rewrite (Int_part_IZR 5).
Qed.
