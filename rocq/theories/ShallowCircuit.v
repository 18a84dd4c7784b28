(** * ShallowCircuit: the shallow transformation of a whole circuit *)
From Coq Require Import List Arith Bool Lia ZArith Reals Lra.
From Verif Require Import Num Graph GraphFacts Spec SpecFacts Circuit EvalFacts VarFacts Interval Dist DistFacts Simplify SimplifyFacts
  TreeProb PropertiesProb TreeLocal NormalizeFacts Restrict Conditional Copy CopyFacts Rename Heap Interaction InteractionFacts MountTree Shallow ShallowFacts ShallowTree.
Import ListNotations.
Local Set Bullet Behavior "Strict Subproofs".
Local Open Scope nat_scope.

(** ** The trees of a tree-shaped circuit *)
Section Exist.
Context {D : Type}.
Implicit Types g h : graph D.

(** The tree without the numbers. *)
Fixpoint shape (i : it) : pc D :=
  match i with
  | ILeaf _ d => PLeaf d
  | IIn true _ l => PSum (map (fun wt => (lw_of (fst wt), shape (snd wt))) l)
  | IIn false _ l => PProd (map (fun wt => shape (snd wt)) l)
  end.

Lemma it_exists g u t : leaves_terminal g -> unfolds g u t -> exists i, iroot i = u /\ at_tree g i /\ shape i = t.
Proof.
  intros LT. revert u t. apply (unfolds_ind' g (fun u t => exists i, iroot i = u /\ at_tree g i /\ shape i = t)); [intros u d Hk|intros u ts Hk Hne HF|intros u ts Hk HF].
  - exists (ILeaf u d). split; [reflexivity|]. split; [|reflexivity]. split; [exact Hk|]. unfold out. destruct (out_edges g u) as [|e m] eqn:E; [reflexivity|].
    exfalso. assert (He : In e (out_edges g u)) by (rewrite E; now left). apply out_edges_In in He. destruct He as [He Es]. apply (LT e d He). now rewrite Es.
  - assert (X : exists l : list (option num * it), map (fun wt => (iroot (snd wt), fst wt)) l = map (fun e => (e_dst e, e_lw e)) (out_edges g u) /\
      Forall (fun wt => at_tree g (snd wt)) l /\ map (fun wt => (lw_of (fst wt), shape (snd wt))) l = ts).
    { clear Hne. induction HF as [|e wt es ts (E & _ & i & I1 & I2 & I3) _ IH]; [exists []; auto|]. destruct IH as (l & L1 & L2 & L3).
      exists ((e_lw e, i) :: l). cbn. rewrite L1, I1. split; [reflexivity|]. split; [constructor; auto|]. rewrite L3, I3, E. now destruct wt. }
    destruct X as (l & L1 & L2 & L3). exists (IIn true u l). split; [reflexivity|]. split; [|cbn; now rewrite L3].
    cbn. split; [exact Hk|]. split; [unfold out; now rewrite L1|]. split; [|now apply fold_and_Forall].
    intros _ ->. cbn in L1. destruct (out_edges g u); [contradiction|discriminate].
  - assert (X : exists l : list (option num * it), map (fun wt => (iroot (snd wt), fst wt)) l = map (fun e => (e_dst e, e_lw e)) (out_edges g u) /\
      Forall (fun wt => at_tree g (snd wt)) l /\ map (fun wt => shape (snd wt)) l = ts).
    { induction HF as [|e t es ts (_ & i & I1 & I2 & I3) _ IH]; [exists []; auto|]. destruct IH as (l & L1 & L2 & L3).
      exists ((e_lw e, i) :: l). cbn. rewrite L1, I1. split; [reflexivity|]. split; [constructor; auto|]. now rewrite L3, I3. }
    destruct X as (l & L1 & L2 & L3). exists (IIn false u l). split; [reflexivity|]. split; [|cbn; now rewrite L3].
    cbn. split; [exact Hk|]. split; [unfold out; now rewrite L1|]. split; [discriminate|]. now apply fold_and_Forall.
Qed.

Section Unique.
Variables (g : graph D) (rk : id -> nat).
Hypothesis Hrk : forall a b, In b (subcircuits g a) -> rk b < rk a.
Hypothesis Huniq : forall a a' b, In b (subcircuits g a) -> In b (subcircuits g a') -> a = a'.

Lemma ids_rank i : at_tree g i -> forall x, In x (ids i) -> rk x <= rk (iroot i).
Proof.
  induction i as [n d|b n l IH] using it_ind'; intros H x Hx.
  - destruct Hx as [<-|[]]. auto.
  - destruct Hx as [<-|Hx]; [auto|]. apply in_flat_map in Hx. destruct Hx as (wt & Hw & Hx). rewrite Forall_forall in IH.
    pose proof (IH wt Hw (at_children _ _ _ _ _ H Hw) x Hx) as H1. assert (H2 : In (iroot (snd wt)) (subcircuits g n)).
    { destruct H as (_ & O & _). rewrite sub_out, O, map_map. cbn. apply in_map_iff. eauto. }
    apply Hrk in H2. cbn. lia.
Qed.

(** The parent of a unit of the tree, except for the root, is a unit of the tree. *)
Lemma ids_parent i : at_tree g i -> forall x a, In x (ids i) -> x <> iroot i -> In x (subcircuits g a) -> In a (ids i).
Proof.
  induction i as [n d|b n l IH] using it_ind'; intros H x a Hx Hne Ha.
  - destruct Hx as [<-|[]]. now destruct Hne.
  - destruct Hx as [<-|Hx]; [now destruct Hne|]. apply in_flat_map in Hx. destruct Hx as (wt & Hw & Hx). destruct (Nat.eq_dec x (iroot (snd wt))) as [->|Hn].
    + left. apply (Huniq n a (iroot (snd wt))); [|exact Ha]. destruct H as (_ & O & _). rewrite sub_out, O, map_map. cbn. apply in_map_iff. eauto.
    + right. apply in_flat_map. exists wt. split; [exact Hw|]. rewrite Forall_forall in IH. eapply (IH wt Hw); eauto. eapply at_children; eauto.
Qed.

Lemma ids_meet i : at_tree g i -> forall j x, at_tree g j -> In x (ids i) -> In x (ids j) -> In (iroot i) (ids j) \/ In (iroot j) (ids i).
Proof.
  induction i as [n d|b n l IH] using it_ind'; intros H j x Hj Hx Hxj.
  - destruct Hx as [<-|[]]. auto.
  - destruct Hx as [<-|Hx]; [auto|]. apply in_flat_map in Hx. destruct Hx as (wt & Hw & Hx). rewrite Forall_forall in IH.
    destruct (IH wt Hw (at_children _ _ _ _ _ H Hw) j x Hj Hx Hxj) as [H1|H1].
    + destruct (Nat.eq_dec (iroot (snd wt)) (iroot j)) as [E|E].
      * right. right. apply in_flat_map. exists wt. split; [exact Hw|]. rewrite <- E. apply root_in.
      * left. apply (ids_parent j Hj (iroot (snd wt))); auto. destruct H as (_ & O & _). cbn. rewrite sub_out, O, map_map. cbn. apply in_map_iff. eauto.
    + right. right. apply in_flat_map. eauto.
Qed.

Hypothesis W : wf g.

Lemma ids_nodup i : at_tree g i -> NoDup (ids i).
Proof.
  induction i as [n d|b n l IH] using it_ind'; intros H; [repeat constructor; intros []|]. cbn.
  assert (Hs : subcircuits g n = map (fun wt => iroot (snd wt)) l) by (destruct H as (_ & O & _); rewrite sub_out, O, map_map; reflexivity).
  assert (Hr : forall wt x, In wt l -> In x (ids (snd wt)) -> rk x < rk n).
  { intros wt x Hw Hx. pose proof (ids_rank _ (at_children _ _ _ _ _ H Hw) x Hx). assert (X : In (iroot (snd wt)) (subcircuits g n)) by (rewrite Hs; apply in_map_iff; eauto). apply Hrk in X. lia. }
  constructor.
  - intros Hx. apply in_flat_map in Hx. destruct Hx as (wt & Hw & Hx). pose proof (Hr wt n Hw Hx). lia.
  - assert (ND : NoDup (map (fun wt => iroot (snd wt)) l)) by (rewrite <- Hs; rewrite sub_out; now apply out_nodup).
    assert (Hin : forall wt, In wt l -> at_tree g (snd wt) /\ In (iroot (snd wt)) (subcircuits g n) /\ (forall x, In x (ids (snd wt)) -> rk x < rk n)).
    { intros wt Hw. split; [eapply at_children; eauto|]. split; [rewrite Hs; apply in_map_iff; eauto|]. intros x. now apply Hr. }
    rewrite Forall_forall in IH. assert (IH' : forall wt, In wt l -> NoDup (ids (snd wt))) by (intros wt Hw; apply IH; auto; eapply at_children; eauto).
    clear - ND Hin IH' Hrk Huniq. induction l as [|wt m IHm]; [constructor|]. cbn. cbn in ND. inversion ND as [|? ? N1 N2]; subst. apply NoDup_app_intro.
    + apply IH'. now left.
    + apply IHm; [exact N2|intros; apply Hin; now right|intros; apply IH'; now right].
    + intros x Hx Hx'. apply in_flat_map in Hx'. destruct Hx' as (wt' & Hw' & Hx'). destruct (Hin wt (or_introl eq_refl)) as (A1 & A2 & A3). destruct (Hin wt' (or_intror Hw')) as (B1 & B2 & B3).
      assert (Ne : iroot (snd wt) <> iroot (snd wt')) by (intros E; apply N1; rewrite E; apply in_map_iff; eauto).
      destruct (ids_meet _ A1 (snd wt') x B1 Hx Hx') as [H|H].
      * assert (X : In n (ids (snd wt'))) by (apply (ids_parent _ B1 (iroot (snd wt))); auto). apply B3 in X. lia.
      * assert (X : In n (ids (snd wt))) by (apply (ids_parent _ A1 (iroot (snd wt'))); auto). apply A3 in X. lia.
Qed.
End Unique.

Lemma height_ids (i : it (D := D)) : iheight i <= length (ids i).
Proof.
  induction i as [n d|b n l IH] using it_ind'; cbn; [lia|]. apply le_n_S. apply list_max_le. rewrite Forall_map, Forall_forall. intros wt Hw. rewrite Forall_forall in IH. pose proof (IH wt Hw) as H.
  clear - H Hw. induction l as [|a m IHm]; [destruct Hw|]. cbn. rewrite app_length. destruct Hw as [->|Hw]; [lia|]. specialize (IHm Hw). lia.
Qed.

(** ** The copy that is transformed *)
Lemma copy_out g : wf g -> forall u, out (circuit_copy (fun u => u) g) u = out g u.
Proof.
  intros W u. pose proof (circuit_copy_same_as (fun u => u) g (fun x y E => E) W) as S. pose proof (Rename.sa_out _ _ _ S u) as E. cbn in E. unfold out. rewrite E, map_map. apply map_ext. intros [a b c]. reflexivity.
Qed.

Lemma copy_kind g : wf g -> forall u, node_kind (circuit_copy (fun u => u) g) u = node_kind g u.
Proof. intros W u. pose proof (circuit_copy_same_as (fun u => u) g (fun x y E => E) W) as S. exact (ren_node_kind _ _ _ S u). Qed.

Lemma copy_ids g : wf g -> node_ids (circuit_copy (fun u => u) g) = node_ids g.
Proof. intros W. pose proof (circuit_copy_same_as (fun u => u) g (fun x y E => E) W) as S. rewrite (ren_node_ids _ _ _ S). apply map_id. Qed.

Lemma copy_root g : wf g -> root (circuit_copy (fun u => u) g) = root g.
Proof. intros W. pose proof (circuit_copy_same_as (fun u => u) g (fun x y E => E) W) as S. rewrite (ren_root _ _ _ S). now destruct (root g). Qed.

Lemma copy_wf g : wf g -> wf (circuit_copy (fun u => u) g).
Proof.
  intros W. rewrite (circuit_copy_eq (fun u => u) g (fun x y E => E) W). constructor; unfold node_ids; cbn [g_nodes g_edges].
  - rewrite map_map. apply W.
  - rewrite map_map. cbn. now apply edges_iter_NoDup.
  - intros e He. apply in_map_iff in He. destruct He as (e' & <- & He). rewrite map_map. cbn. apply edges_iter_in in He. destruct He as [He _]. now apply (wf_src _ W).
  - intros e He. apply in_map_iff in He. destruct He as (e' & <- & He). rewrite map_map. cbn. apply edges_iter_in in He. destruct He as [He _]. now apply (wf_dst _ W).
Qed.

Lemma list_max_in l x : In x l -> x <= list_max l.
Proof. intros H. pose proof (proj1 (list_max_le l (list_max l)) (le_n _)) as F. rewrite Forall_forall in F. now apply F. Qed.

(** ** From the shape that is produced to a tree *)
Definition flat_tree (l : list (num * list D)) : pc D := PSum (map (fun x => (fst x, PProd (map PLeaf (snd x)))) l).

Lemma shallow_layered q s T (F : list (num * list D)) : wf q -> shallow_at q s T -> T <> [] -> reads q T = flagged F -> (forall x, In x (node_ids q) <-> In x (owned s T)) ->
  layered_circuit q (flat_tree F).
Proof.
  intros W SA Ne Rd Hn. pose proof SA as [SK SO SP SL].
  assert (Pt : forall p p', In p T -> In p' T -> p_id p = p_id p' -> p = p').
  { pose proof (out_nodup q s W) as ND. rewrite SO, map_map in ND. cbn in ND. clear - ND. intros p p' H H' E. revert ND. induction T as [|t T IH]; [destruct H|]. cbn. intros ND. inversion ND as [|? ? N1 N2]; subst.
    destruct H as [->|H], H' as [->|H']; auto; exfalso; apply N1; [rewrite E|rewrite <- E]; now apply in_map. }
  assert (Lv : forall e, In e (g_edges q) -> (e_src e = s /\ exists p, In p T /\ e_dst e = p_id p) \/ exists p, In p T /\ e_src e = p_id p /\ In (e_dst e) (p_ls p)).
  { intros e He. pose proof (wf_src _ W e He) as Hs. apply Hn, owned_cases in Hs. assert (Ho : In (e_dst e) (map fst (out q (e_src e)))).
    { rewrite <- sub_out. apply subcircuits_In. eauto. }
    destruct Hs as [E|[(p & Hp & E)|(p & Hp & Hl)]].
    - left. split; [exact E|]. rewrite E, SO, map_map in Ho. cbn in Ho. apply in_map_iff in Ho. destruct Ho as (p & E' & Hp). eauto.
    - right. exists p. split; [exact Hp|]. split; [exact E|]. rewrite E in Ho. destruct (SP p Hp) as [_ O]. rewrite O, map_map in Ho. cbn in Ho. now rewrite map_id in Ho.
    - exfalso. destruct (SL p _ Hp Hl) as [_ O]. rewrite O in Ho. destruct Ho. }
  assert (Eo : forall x y, In y (subcircuits q x) -> In y (map e_dst (g_edges q))) by (intros x y H; apply subcircuits_In in H; destruct H as (e & He & _ & <-); now apply in_map).
  split; [exact W|]. split.
  - intros e d He Hk. destruct (Lv e He) as [[E _]|(p & Hp & E & _)]; rewrite E in Hk; [congruence|]. destruct (SP p Hp) as [K _]. congruence.
  - exists s. split; [|split].
    + apply root_intro; auto.
      * apply Hn, owned_cases. auto.
      * intros H. apply in_map_iff in H. destruct H as (e & E & He). destruct (Lv e He) as [[_ (p & Hp & E')]|(p & Hp & _ & Hl)].
        -- destruct (SP p Hp) as [K _]. rewrite <- E', E in K. congruence.
        -- destruct (SL p _ Hp Hl) as [[d K] _]. rewrite E in K. congruence.
      * intros u Hu Hne. apply Hn, owned_cases in Hu. destruct Hu as [->|[(p & Hp & ->)|(p & Hp & Hl)]]; [contradiction| |].
        -- apply (Eo s). rewrite sub_out, SO, map_map. cbn. now apply in_map.
        -- apply (Eo (p_id p)). rewrite sub_out. destruct (SP p Hp) as [_ ->]. rewrite map_map. cbn. now rewrite map_id.
    + exists (fun x => match node_kind q x with Some USum => 0 | Some UProd => 1 | _ => 2 end). rewrite SK. split; [reflexivity|]. intros e He _. destruct (Lv e He) as [[E (p & Hp & E')]|(p & Hp & E & Hl)].
      * rewrite E, E', SK. destruct (SP p Hp) as [-> _]. reflexivity.
      * rewrite E. destruct (SP p Hp) as [-> _]. destruct (SL p _ Hp Hl) as [[d ->] _]. reflexivity.
    + constructor; [exact SK| |].
      * intros E. unfold out in SO. rewrite E in SO. destruct T; [contradiction|discriminate].
      * assert (X : forall es T' F', incl T' T -> map (fun e => (e_dst e, e_lw e)) es = map (fun p => (p_id p, Some (p_w p))) T' -> reads q T' = flagged F' ->
          Forall2 (fun e wt => e_lw e = Some (fst wt) /\ unfolds q (e_dst e) (snd wt)) es (map (fun x => (fst x, PProd (map PLeaf (snd x)))) F')).
        { clear Rd Ne SO. induction es as [|e es IH]; intros [|p T'] [|x F'] I E R; try discriminate; [constructor|]. cbn in E, R. injection E as E1 E2 E3. injection R as R1 R2 R3. constructor.
          - cbn. rewrite E2, R1. split; [reflexivity|]. rewrite E1. assert (Hp : In p T) by (apply I; now left). destruct (SP p Hp) as [K O]. constructor; [exact K|].
            assert (Y : forall es ls ds, incl ls (p_ls p) -> map (fun e => (e_dst e, e_lw e)) es = map (fun l => (l, None)) ls -> map (leaf_dist q) ls = map Some ds ->
              Forall2 (fun e t => unfolds q (e_dst e) t) es (map PLeaf ds)).
            { clear - SL Hp. induction es as [|e es IH]; intros [|l ls] [|d ds] I E R; try discriminate; [constructor|]. cbn in E, R. injection E as E1 E2 E3. injection R as R1 R2. constructor; [|apply (IH ls); auto; intros y Hy; apply I; now right].
              rewrite E1. apply unf_leaf. unfold leaf_dist in R1. destruct (node_kind q l) as [[d'| |]|]; congruence. }
            apply (Y _ (p_ls p)); [apply incl_refl|exact O|exact R2].
          - apply (IH T'); [intros y Hy; apply I; now right|exact E3|exact R3]. }
        apply (X _ T); [apply incl_refl|exact SO|exact Rd].
Qed.

(** ** The whole transformation *)
Theorem shallow_circuit g r t : tree_shaped g r -> leaves_terminal g -> unfolds g r t ->
  exists q i, from_probabilistic_circuit g = Some q /\ at_tree g i /\ shape i = t /\ layered_circuit q (flat_tree (iflat i)).
Proof.
  intros TS LT U. pose proof TS as (W & [rk Hrk] & Hr & ND & Hall & Hnr). destruct (it_exists g r t LT U) as (i & I1 & I2 & I3).
  assert (Hrk' : forall a b, In b (subcircuits g a) -> rk b < rk a) by (intros a b H; apply subcircuits_In in H; destruct H as (e & He & <- & <-); auto).
  assert (Hu : forall a a' b, In b (subcircuits g a) -> In b (subcircuits g a') -> a = a').
  { intros a a' b H H'. apply subcircuits_In in H, H'. destruct H as (e & He & <- & E), H' as (e' & He' & <- & E'). f_equal. apply (tree_in_edges g r TS b); apply in_edges_In; auto. }
  pose proof (ids_nodup g rk Hrk' Hu W i I2) as NDi.
  assert (Cov : forall x, In x (node_ids g) -> In x (ids i)).
  { intros x Hx. pose proof (root_reaches_all g r W (ex_intro _ rk Hrk) (tree_root g r TS) x Hx) as R. clear Hx. induction R as [|v e R IH He Es]; [rewrite <- I1; apply root_in|].
    apply (at_down g i I2 v); auto. apply subcircuits_In. eauto. }
  set (gc := circuit_copy (fun u => u) g). assert (Oc : forall u, out gc u = out g u) by (intros u; now apply copy_out). assert (Sc : forall u, subcircuits gc u = subcircuits g u) by (intros u; now rewrite !sub_out, Oc).
  set (f := S (list_max (node_ids g))).
  assert (P : pre gc f i None).
  { constructor.
    - now apply copy_wf.
    - unfold gc. rewrite copy_ids by exact W. intros x Hx. apply list_max_in in Hx. unfold f. lia.
    - apply at_frame with (g := g); [exact I2|]. intros x _. unfold gc. rewrite copy_kind by exact W. auto.
    - exact NDi.
    - intros a b Hb Hi. rewrite Sc in Hb. left. apply (ids_parent g Hu i I2 b a Hi); [|exact Hb]. rewrite I1. intros ->. apply Hnr. apply subcircuits_In in Hb. destruct Hb as (e & He & _ & <-). now apply in_map.
    - discriminate. }
  destruct (good_all i (S (length (g_nodes g))) gc f None) as (g' & f' & s & T & E & Q); [|exact P|].
  { pose proof (height_ids i) as H. assert (L : length (ids i) <= length (node_ids g)) by (apply NoDup_incl_length; [exact NDi|]; intros x; apply (at_nodes g i I2)). unfold node_ids in L. rewrite map_length in L. unfold id in *. lia. }
  assert (Hn : forall x, In x (node_ids g') <-> In x (owned s T)).
  { intros x. rewrite (po_nodes _ _ _ _ _ _ _ _ Q). unfold gc. rewrite copy_ids by exact W. split; [intros [[H1 H2]|H]; [exfalso; auto|exact H]|auto]. }
  destruct (add_circuit_spec empty_graph g') as (Wq & Nq & _ & Fq).
  { constructor; cbn; try constructor; intros e []. }
  { apply Q. }
  { intros x _ []. }
  exists (add_circuit empty_graph g'), i. split.
  { unfold from_probabilistic_circuit. fold gc. fold f. unfold gc at 1. rewrite copy_root, (tree_root g r TS) by exact W. rewrite <- I1 at 1. rewrite E. reflexivity. }
  split; [exact I2|]. split; [exact I3|].
  assert (Fr : forall x, In x (owned s T) -> node_kind (add_circuit empty_graph g') x = node_kind g' x /\ out (add_circuit empty_graph g') x = out g' x).
  { intros x Hx. destruct (Fq x (proj2 (Hn x) Hx)) as [K O]. split; [exact K|]. unfold out. now rewrite O. }
  apply (shallow_layered _ s T).
  - exact Wq.
  - apply shallow_frame with (g := g'); [apply Q|exact Fr].
  - apply Q.
  - rewrite <- (po_reads _ _ _ _ _ _ _ _ Q). apply reads_frame with (s := s). intros x Hx. now apply Fr.
  - intros x. rewrite Nq, Hn. cbn. tauto.
Qed.
End Exist.
