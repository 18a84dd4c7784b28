(** * PropertiesJaxComponents: the size of a layered circuit (C73) *)
From Coq Require Import List Arith Bool Lia Sorted Reals Lra ZArith.
From Verif Require Import Num Graph GraphFacts Circuit EvalFacts Interval Dist Simplify SpecFacts JaxLayer JaxLayerFacts JaxSpec JaxMeaning JaxToNx JaxToNxFacts JaxComponents JaxComponentsFacts.
Import ListNotations.
Local Set Bullet Behavior "Strict Subproofs".
Local Open Scope nat_scope.

(** The leaves and the edges of a circuit. *)
Definition leaves_and_edges (g : graph dist) : nat :=
  length (filter (fun p => match snd p with ULeaf _ => true | _ => false end) (g_nodes g)) + length (g_edges g).

(** All parameter vectors are long enough, no edge is stored twice and there are no weights for child layers that do not exist. *)
Fixpoint tidy (L : layer) : Prop :=
  match L with
  | LInput _ i =>
      match i with
      | IGauss loc ls ms => length loc <= length ls /\ length loc <= length ms
      | IDirac loc cap => length loc <= length cap
      | _ => True
      end
  | LSparse ws cs => Forall (fun w => NoDup (map fst (s_entries w))) ws /\ Forall (fun w => s_entries w = []) (skipn (length cs) ws) /\ fold_right and True (map tidy cs)
  | LDense ws cs => Forall (fun w => d_rows w * d_cols w = 0) (skipn (length cs) ws) /\ fold_right and True (map tidy cs)
  | LProd edges cs => NoDup (s_entries edges) /\ fold_right and True (map tidy cs)
  end.

Lemma total_map_le {A} (f h : A -> nat) l : (forall x, In x l -> f x <= h x) -> total (map f l) <= total (map h l) /\ (total (map f l) = total (map h l) <-> Forall (fun x => f x = h x) l).
Proof.
  induction l as [|a l IH]; intros H; [split; [apply le_n|]; split; constructor|]. destruct (IH (fun x Hx => H x (or_intror Hx))) as [I1 I2]. pose proof (H a (or_introl eq_refl)). cbn [map total fold_right]. fold (total (map f l)) (total (map h l)). split; [lia|]. split.
  - intros E. constructor; [lia|]. apply I2. lia.
  - intros F. inversion F as [|? ? F1 F2]; subst. apply I2 in F2. lia.
Qed.

Lemma total_app a b : total (a ++ b) = total a + total b.
Proof. induction a as [|x a IH]; [reflexivity|]. cbn [app total fold_right]. fold (total (a ++ b)) (total a). lia. Qed.

Lemma combine_firstn {A B C} (f : A -> C) (a : list A) (b : list B) : map (fun p => f (fst p)) (combine a b) = map f (firstn (length b) a).
Proof. revert b. induction a as [|x a IH]; intros [|y b]; cbn; auto. f_equal. apply IH. Qed.

Lemma weights_le {A B} (f h : A -> nat) (ws : list A) (cs : list B) : (forall w, f w <= h w) ->
  total (map (fun wc => f (fst wc)) (combine ws cs)) <= total (map h ws) /\
  (total (map (fun wc => f (fst wc)) (combine ws cs)) = total (map h ws) <-> Forall (fun w => f w = h w) (firstn (length cs) ws) /\ Forall (fun w => h w = 0) (skipn (length cs) ws)).
Proof.
  intros H. rewrite combine_firstn. rewrite <- (firstn_skipn (length cs) ws) at 2 4. rewrite map_app, total_app. destruct (total_map_le f h (firstn (length cs) ws) (fun w _ => H w)) as [I1 I2].
  assert (Z : total (map h (skipn (length cs) ws)) = 0 <-> Forall (fun w => h w = 0) (skipn (length cs) ws)).
  { generalize (skipn (length cs) ws) as l. induction l as [|w l IH]; [split; constructor|]. cbn [map total fold_right]. fold (total (map h l)). split.
    - intros E. constructor; [lia|]. apply IH. lia.
    - intros F. inversion F as [|? ? F1 F2]; subst. apply IH in F2. lia. }
  split; [lia|]. rewrite <- I2, <- Z. split; [intros E; split; lia|intros [E1 E2]; lia].
Qed.

Lemma Forall_halves {A} (P : A -> Prop) n l : Forall P l <-> Forall P (firstn n l) /\ Forall P (skipn n l).
Proof. rewrite <- (firstn_skipn n l) at 1. apply Forall_app. Qed.

Lemma written_le L : written L <= number_of_components L /\ (written L = number_of_components L <-> tidy L).
Proof.
  induction L as [v i|ws cs IH|ws cs IH|edges cs IH] using layer_ind'.
  - destruct i as [loc ls ms|ps|is|loc cap]; cbn [written number_of_components number_of_nodes input_nodes leaves tidy]; rewrite ?map_length, ?combine_length, ?map_length, ?combine_length; split; try lia; split; lia.
  - cbn [written number_of_components tidy]. rewrite fold_and_Forall.
    assert (IH' : forall c, In c cs -> written c <= number_of_components c /\ (written c = number_of_components c <-> tidy c)) by (apply Forall_forall; exact IH).
    destruct (total_map_le written number_of_components cs (fun c Hc => proj1 (IH' c Hc))) as [I1 I2].
    destruct (weights_le (fun w => length (nodup pair_dec (map fst (s_entries w)))) (fun w : sparse num => length (s_entries w)) ws cs) as [W1 W2].
    { intros w. rewrite <- (map_length fst (s_entries w)). apply nodup_length_le. }
    split; [lia|]. assert (C : Forall (fun c => written c = number_of_components c) cs <-> Forall tidy cs) by (rewrite !Forall_forall; split; intros X c Hc; apply (IH' c Hc); auto).
    rewrite <- C, <- I2. rewrite (Forall_halves _ (length cs) ws).
    assert (E1 : forall l, Forall (fun w : sparse num => length (nodup pair_dec (map fst (s_entries w))) = length (s_entries w)) l <-> Forall (fun w => NoDup (map fst (s_entries w))) l).
    { intros l. rewrite !Forall_forall. split; intros X w Hw; specialize (X w Hw); [|].
      - apply (nodup_length_eq pair_dec). now rewrite map_length.
      - apply (nodup_length_eq pair_dec) in X. rewrite X. apply map_length. }
    assert (E2 : forall l, Forall (fun w : sparse num => length (s_entries w) = 0) l <-> Forall (fun w => s_entries w = []) l).
    { intros l. rewrite !Forall_forall. split; intros X w Hw; specialize (X w Hw); [now apply length_zero_iff_nil|now rewrite X]. }
    rewrite E1, E2 in W2. split.
    + intros E. assert (A : total (map written cs) = total (map number_of_components cs)) by lia. destruct (proj1 W2) as [B1 B2]; [lia|]. split; [split; [exact B1|]|split; assumption]. rewrite Forall_forall in *. intros w Hw. rewrite (B2 w Hw). constructor.
    + intros ((B1 & _) & B2 & A). assert (total (map (fun wc : sparse num * layer => length (nodup pair_dec (map fst (s_entries (fst wc))))) (combine ws cs)) = total (map (fun w => length (s_entries w)) ws)) by (apply W2; auto). lia.
  - cbn [written number_of_components tidy]. rewrite fold_and_Forall.
    assert (IH' : forall c, In c cs -> written c <= number_of_components c /\ (written c = number_of_components c <-> tidy c)) by (apply Forall_forall; exact IH).
    destruct (total_map_le written number_of_components cs (fun c Hc => proj1 (IH' c Hc))) as [I1 I2].
    destruct (weights_le (fun w => d_rows w * d_cols w) (fun w => d_rows w * d_cols w) ws cs (fun w => le_n _)) as [W1 W2].
    split; [lia|]. assert (C : Forall (fun c => written c = number_of_components c) cs <-> Forall tidy cs) by (rewrite !Forall_forall; split; intros X c Hc; apply (IH' c Hc); auto).
    rewrite <- C, <- I2. split.
    + intros E. split; [apply W2; lia|lia].
    + intros [B A]. assert (total (map (fun wc : dense * layer => d_rows (fst wc) * d_cols (fst wc)) (combine ws cs)) = total (map (fun w => d_rows w * d_cols w) ws)) by (apply W2; split; [apply Forall_forall; reflexivity|exact B]). lia.
  - cbn [written number_of_components tidy]. rewrite fold_and_Forall.
    assert (IH' : forall c, In c cs -> written c <= number_of_components c /\ (written c = number_of_components c <-> tidy c)) by (apply Forall_forall; exact IH).
    destruct (total_map_le written number_of_components cs (fun c Hc => proj1 (IH' c Hc))) as [I1 I2]. pose proof (nodup_length_le triple_dec (s_entries edges)). split; [lia|].
    assert (C : Forall (fun c => written c = number_of_components c) cs <-> Forall tidy cs) by (rewrite !Forall_forall; split; intros X c Hc; apply (IH' c Hc); auto).
    rewrite <- C, <- I2, <- (nodup_length_eq triple_dec). split; [intros E; split; lia|intros [E1 E2]; lia].
Qed.

(** The claim of the docstring for every layer that can be converted. *)
Definition C73_full : Prop := forall n bar L g, circuit_to_nx n bar L = Some g -> leaves_and_edges g = number_of_components L.

(** The number is never too small, and it is right exactly if the layers are tidy. *)
Theorem C73_components_partial n bar L g : circuit_to_nx n bar L = Some g ->
  leaves_and_edges g <= number_of_components L /\ (leaves_and_edges g = number_of_components L <-> tidy L).
Proof.
  intros H. unfold circuit_to_nx in H. destruct (to_nx n bar L (mkGraph [] [])) as [[g' ids]|] eqn:E; [|discriminate]. injection H as <-.
  assert (T : tame (mkGraph [] [])) by (split; [constructor|intros p []]). destruct (to_nx_grows n bar L _ _ _ T E) as (_ & _ & _ & _ & _ & C). cbn in C. change (leaves_and_edges g') with (count g'). rewrite C. apply written_le.
Qed.

(** Layers with sound parameters and indices as [from_nx] makes them are tidy. *)
Theorem C73_sound n bar L : sound L -> indexed L -> Forall (covered n) (all_layers L) -> (bar = true \/ Forall dirac_free (all_layers L)) ->
  exists g, circuit_to_nx n bar L = Some g /\ leaves_and_edges g = number_of_components L.
Proof.
  intros Hs Hi Hc Hd. destruct (to_nx_ok n bar L Hs Hi Hc Hd (mkGraph [] [])) as (g & ids & E & _); [split; [reflexivity|intros e []]|].
  assert (C : circuit_to_nx n bar L = Some g) by (unfold circuit_to_nx; now rewrite E). exists g. split; [exact C|]. apply (C73_components_partial n bar L g C). clear -Hs Hi.
  induction L as [v i|ws cs IH|ws cs IH|edges cs IH] using layer_ind'; cbn [tidy].
  - cbn [sound] in Hs. destruct i; cbn [input_sound] in Hs; auto; lia.
  - cbn [sound indexed] in Hs, Hi. destruct Hs as (_ & _ & Hr & Hs0 & Hs), Hi as [Hi1 Hi2]. rewrite fold_and_Forall in *. split; [exact Hi1|]. split.
    + rewrite skipn_all2; [constructor|]. destruct Hs0 as (_ & _ & X). destruct ws as [|w ws]; [cbn; lia|]. cbn [hd] in Hr. specialize (X 0 ltac:(cbn; lia)). apply Forall2_len in X. rewrite map_length in X. lia.
    + rewrite Forall_forall in *. intros c X. apply IH; auto.
  - destruct Hi.
  - cbn [sound indexed] in Hs, Hi. destruct Hs as (_ & _ & Hs), Hi as (Hi1 & _ & _ & Hi2). rewrite fold_and_Forall in *. split; [exact (NoDup_map_inv _ _ Hi1)|]. rewrite Forall_forall in *. intros c X. apply IH; auto.
Qed.

(** A node with two weights for the same child: both are counted, but the circuit has one edge. *)
Definition twice : layer := LSparse [mkSparse 1 1 [(0, 0, Fin 0); (0, 0, Fin 0)]] [LInput 0 (IUniform [(0, 1)%R])].
Theorem C73_refuted : ~ C73_full.
Proof.
  intros H. destruct (circuit_to_nx 1 false twice) as [g|] eqn:E; [|vm_compute in E; discriminate]. specialize (H 1 false twice g E). pose proof (proj2 (C73_components_partial 1 false twice g E)) as [X _]. specialize (X H). cbn in X. destruct X as [X _]. inversion X as [|? ? X1 _]; subst. cbn in X1. inversion X1 as [|? ? X2 _]; subst. apply X2. now left.
Qed.

(** ** Depth *)

(** [M] is [k] steps below [L]. *)
Inductive below : nat -> layer -> layer -> Prop :=
| below_here L : below 0 L L
| below_child k L c M : In c (match L with LInput _ _ => [] | LSparse _ cs | LDense _ cs | LProd _ cs => cs end) -> below k c M -> below (S k) L M.

(** All layers are listed in the order of [all_layers], each with the number of steps that lead to it. *)
Theorem C73_depth L : forall d, map snd (all_layers_with_depth d L) = all_layers L /\
  forall k M, In (k, M) (all_layers_with_depth d L) <-> exists j, k = d + j /\ below j L M.
Proof.
  assert (Step : forall L cs d, match L with LInput _ _ => [] | LSparse _ cs | LDense _ cs | LProd _ cs => cs end = cs -> all_layers L = L :: concat (map all_layers cs) ->
    Forall (fun c => forall d, map snd (all_layers_with_depth d c) = all_layers c /\ forall k M, In (k, M) (all_layers_with_depth d c) <-> exists j, k = d + j /\ below j c M) cs ->
    map snd ((d, L) :: concat (map (all_layers_with_depth (S d)) cs)) = all_layers L /\
    forall k M, In (k, M) ((d, L) :: concat (map (all_layers_with_depth (S d)) cs)) <-> exists j, k = d + j /\ below j L M).
  { clear. intros L cs d Ec Ea F. rewrite Forall_forall in F. split.
    - rewrite Ea. cbn [map snd]. f_equal. rewrite concat_map, map_map. f_equal. apply map_ext_in. intros c Hc. apply (F c Hc).
    - intros k M. cbn [In]. split.
      + intros [E|H]; [injection E as <- <-; exists 0; split; [lia|constructor]|]. apply in_concat in H. destruct H as (l & Hl & H). apply in_map_iff in Hl. destruct Hl as (c & <- & Hc). apply (F c Hc) in H. destruct H as (j & -> & B). exists (S j). split; [lia|]. apply (below_child _ _ c); [rewrite Ec; exact Hc|exact B].
      + intros (j & -> & B). inversion B as [|j' ? c ? Hc B']; subst; [left; f_equal; lia|right]. apply in_concat. exists (all_layers_with_depth (S d) c). split; [apply in_map; exact Hc|]. apply (F c Hc). exists j'. split; [lia|exact B']. }
  induction L as [v i|ws cs IH|ws cs IH|edges cs IH] using layer_ind'; intros d; [apply (Step _ [])| apply Step|apply Step|apply Step]; auto.
Qed.

(** A mixture of two products over a Gaussian and a discrete variable: three leaves, four edges of the products and two of the sum. *)
Definition small : layer := LSparse [mkSparse 1 2 [(0, 0, Fin 0); (0, 1, Fin (ln 3))]]
  [LProd (mkSparse 2 2 [(0, 0, 0); (0, 1, 1); (1, 0, 0); (1, 1, 0)]) [LInput 0 (IGauss [0; 5]%R [0; 0]%R [1; 1]%R); LInput 1 (IDiscrete [[Fin 0; Fin 0]])]].
Example C73_case : number_of_components small = 9 /\ exists g, circuit_to_nx 2 false small = Some g /\ leaves_and_edges g = 9.
Proof.
  split; [reflexivity|]. destruct (C73_sound 2 false small) as (g & E & X); [| | | |exists g; split; [exact E|exact X]].
  - cbn [sound small]. split; [discriminate|]. split; [repeat constructor|]. split; [cbn; lia|]. split; [split; [repeat constructor|split]|].
    + intros [|r] Hr; [|cbn in Hr; lia]. unfold total_weight. cbn. rewrite exp_0, exp_ln by lra. lra.
    + intros [|r] Hr; [|cbn in Hr; lia]. repeat constructor; cbn; lia.
    + cbn. split; [|exact I]. split; [reflexivity|]. split; [|split; [auto|split; [|exact I]]].
      * intros e d He Hd. repeat (destruct He as [<-|He]; [cbn in Hd; inversion Hd; cbn; lia|]). destruct He.
      * intros row [<-|[]]. split; [repeat constructor|]. cbn. rewrite exp_0. lra.
  - cbn. split; [repeat constructor; cbn; intuition discriminate|]. split; [|exact I]. split; [repeat constructor; cbn; intuition discriminate|]. split; [repeat constructor; cbn; lia|]. split; [|auto]. intros e He. repeat (destruct He as [<-|He]; [cbn; lia|]). destruct He.
  - repeat constructor.
  - right. repeat constructor.
Qed.
Example C73_depths : map fst (all_layers_with_depth 0 small) = [0; 1; 2; 2].
Proof. reflexivity. Qed.

Print Assumptions C73_components_partial.
Print Assumptions C73_sound.
Print Assumptions C73_refuted.
Print Assumptions C73_depth.
