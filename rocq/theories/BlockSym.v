(** * Block trees: totality, the case without symmetry and the symmetric case. *)

From Coq Require Import List Arith ZArith Bool Lia Permutation.
From Verif Require Import ClusterModel ClusterSpec ClusterProofs ClusterPartition ClusterMore IOModel IOSpec IOProofs
  BlockModel BlockSpec BlockProofs BlockFinal.
Import ListNotations.

Lemma omap_ext : forall A C (f g : A -> option C) l r, (forall x y, In x l -> f x = Some y -> g x = Some y) ->
  omap f l = Some r -> omap g l = Some r.
Proof.
  intros A C f g. induction l as [|x l IH]; intros r H E; [exact E|]. cbn in *.
  destruct (f x) as [y|] eqn:Ex; [|discriminate]. destruct (omap f l) as [ys|] eqn:El; [|discriminate].
  rewrite (H x y (or_introl eq_refl) Ex). rewrite (IH ys); [exact E| |reflexivity].
  intros z w Hz. apply H. right; exact Hz.
Qed.

Lemma build_mono : forall B f f' t s b, f <= f' -> build_block_tree B f t s = Some b -> build_block_tree B f' t s = Some b.
Proof.
  intros B. induction f as [|f IH]; intros f' t s b Hle H; [discriminate|].
  destruct f' as [|f']; [lia|]. cbn [build_block_tree] in *.
  destruct (branch B t s) as [k|l]; [exact H|].
  destruct (omap (fun ts => build_block_tree B f (fst ts) (snd ts)) l) as [bs|] eqn:E; [|discriminate].
  erewrite omap_ext; [exact H| |exact E]. intros x y _ Q. apply IH; [lia|exact Q].
Qed.

Lemma leaves_total : forall fuel b, length (preorder b) <= fuel -> exists r, get_leaves_from fuel b = Some r.
Proof. intros fuel b H. apply leaves_run_total. cbn. lia. Qed.

Section Total.
  Variable B : bbuild.
  Variables T S : ctree.
  Hypothesis HT : partitioned T (bb_tparts B).
  Hypothesis HS : partitioned S (bb_sparts B).

  Lemma build_root_total : part_valid B T -> exists n, forall fuel, n <= fuel -> exists root, build_root B fuel T S = Some root.
  Proof.
    intros HV.
    destruct (build_total B T S HT HS (nn T + nn S) T S (tN_root T) (sN_root S) (root_t_ok B T HT HV) (le_n _)) as [b Hb].
    exists (nn T + nn S + length (preorder b)). intros fuel Hf. unfold build_root.
    rewrite (build_mono B _ fuel T S b) with (2 := Hb) by lia. destruct b as [bi cs].
    assert (exists r, reset_root B fuel (RNode bi cs) = Some r) as [[b' cs'] ->]; [|eexists; reflexivity].
    unfold reset_root. destruct (in_part B (b_t (rt_val (RNode bi cs)))); [eexists; reflexivity|].
    unfold part_valid in HV. destruct (bb_tpart B) as [p|]; [|eexists; reflexivity].
    destruct (nth_error (bb_tparts B) p) as [u|]; [|contradiction].
    destruct (reset_run_total p fuel [RNode bi cs] []) as [r Hr].
    { cbn [map sumn fold_right]. lia. }
    rewrite Hr. eexists; reflexivity.
  Qed.
End Total.

(** *** No symmetry *)

Section NoSym.
  Variable B : bbuild.
  Variables T S : ctree.
  Hypothesis HT : partitioned T (bb_tparts B).
  Hypothesis HS : partitioned S (bb_sparts B).
  Hypothesis NT : nonempty T.
  Hypothesis NS : nonempty S.
  Hypothesis HN : bb_uplo B = UpN.

  Lemma removed_N : forall t s, removed B t s = false.
  Proof. intros. unfold removed. rewrite HN. reflexivity. Qed.
  Lemma NR_N : forall i j, NR B T S i j.
  Proof. intros i j t s _ _ H. rewrite removed_N in H. discriminate. Qed.

  Lemma off_in : forall u, 0 < ci_size (ct_info u) -> in_iv (ci_off (ct_info u)) (interval u) = true.
  Proof. intros u H. unfold in_iv, interval. cbn [fst snd]. apply andb_true_iff. split; [apply Nat.leb_le|apply Nat.ltb_lt]; lia. Qed.

  Lemma witnessed_N : witnessed B T S.
  Proof.
    intros t s Ht Hs _. exists (ci_off (ct_info t)), (ci_off (ct_info s)).
    split; [apply off_in, NT, Ht|split; [apply off_in, NS, Hs|apply NR_N]].
  Qed.

  Lemma sym_N : forall root, final_root B T S root -> part_valid B T -> sleaves (b_sym (rt_val root)) root = [].
  Proof.
    intros root HR HV.
    assert (G : forall b, (forall u, In u (preorder b) -> b_sym (rt_val u) = false) -> sleaves false b = []).
    { induction b as [i cs IH] using rtree_ind'. intros H. cbn [sleaves].
      assert (Ei : b_sym i = false) by (apply (H (RNode i cs)); rewrite preorder_eq; left; reflexivity).
      rewrite Ei. cbn [orb].
      assert (E : concat (map (sleaves false) cs) = []).
      { assert (Q : forall c, In c cs -> sleaves false c = []).
        { intros c Hc. apply IH; [exact Hc|]. intros u Hu. apply H. rewrite preorder_eq. right. apply in_concat.
          exists (preorder c). split; [apply in_map, Hc|exact Hu]. }
        clear - Q. induction cs as [|c cs IH]; [reflexivity|]. cbn. rewrite (Q c (or_introl eq_refl)). apply IH.
        intros x Hx. apply Q. right; exact Hx. }
      rewrite E. destruct cs; reflexivity. }
    assert (HSy : forall t s, has_sym B t s = false) by (intros; unfold has_sym; rewrite HN; reflexivity).
    destruct HR as [fuel Hi HB|fuel root0 p u cs f Ep Eu HB Hi Hreset ->].
    - pose proof (build_full B T S HT HS fuel T S root (tN_root T) (sN_root S) (root_t_ok B T HT HV) (removed_N T S) HB) as HF.
      assert (Q : forall u, In u (preorder root) -> b_sym (rt_val u) = false).
      { intros u Hu. destruct (HF u Hu) as ((_ & _ & _ & Q & _) & _). rewrite Q. apply HSy. }
      rewrite (Q root); [apply G, Q|]. rewrite preorder_eq. left; reflexivity.
    - cbn [rt_val b_sym]. rewrite HSy. apply G. intros v Hv. rewrite preorder_eq in Hv. destruct Hv as [<-|Hv]; [reflexivity|].
      cbn [rt_children] in Hv. apply in_concat in Hv. destruct Hv as (x & Hx & Hv). apply in_map_iff in Hx. destruct Hx as (c & <- & Hc).
      pose proof (reset_Col B T S HT HS p f root0 cs Ep (Sta_root B T S HT HV (removed_N T S) Hi fuel root0 HB) Hreset c Hc) as ((f' & A1) & A2 & A3 & A4 & A5 & _).
      destruct (build_full B T S HT HS f' _ _ c A2 A3 A4 A5 A1 v Hv) as ((_ & _ & _ & Q & _) & _). rewrite Q. apply HSy.
  Qed.

  Lemma nosym_main : part_valid B T -> forall fuel root fuel' L Y, build_root B fuel T S = Some root ->
    get_leaves_from fuel' root = Some (L, Y) ->
    Y = [] /\ (forall i j, count (covers i j) L = if row_in B T i && in_iv j (interval S) then 1 else 0).
  Proof.
    intros HV fuel root fuel' L Y HR HL. apply (build_root_shape B T S HT HS HV) in HR.
    apply leaves_run_ok in HL. cbn [map concat fst snd app] in HL. rewrite !app_nil_r in HL. destruct HL as [P1 P2].
    destruct (final_leaves B T S HT HS HV (removed_N T S) (fun _ _ _ _ => removed_N _ _) witnessed_N root HR) as [H1 _].
    split.
    - rewrite (sym_N root HR HV) in P2. symmetry in P2. apply Permutation_nil in P2. exact P2.
    - intros i j. rewrite (count_perm _ _ _ _ P1), <- (row_in_X B T S). apply (H1 i j), NR_N.
  Qed.
End NoSym.

(** *** Every node of the final tree *)
Section Facts.
  Variable B : bbuild.
  Variables T S : ctree.
  Hypothesis HT : partitioned T (bb_tparts B).
  Hypothesis HS : partitioned S (bb_sparts B).

  Lemma rleaves_node : forall b x, In x (rleaves b) -> exists u, In u (preorder b) /\ rt_val u = x /\ rt_children u = [].
  Proof.
    induction b as [i cs IH] using rtree_ind'. intros x Hx. destruct cs as [|c cs].
    - destruct Hx as [<-|[]]. exists (RNode i []). split; [left; reflexivity|split; reflexivity].
    - cbn [rleaves] in Hx. apply in_concat in Hx. destruct Hx as (l & Hl & Hx). apply in_map_iff in Hl. destruct Hl as (y & <- & Hy).
      destruct (IH y Hy x Hx) as (u & Hu & Eu). exists u. split; [|exact Eu]. rewrite preorder_eq. right. apply in_concat.
      exists (preorder y). split; [apply in_map, Hy|exact Hu].
  Qed.

  Lemma final_sym : forall root, final_root B T S root -> part_valid B T -> removed B T S = false ->
    forall u, In u (preorder root) -> b_sym (rt_val u) = has_sym B (b_t (rt_val u)) (b_s (rt_val u)).
  Proof.
    intros root HR HV Hrem v Hv. destruct HR as [fuel Hi HB|fuel root0 p u cs f Ep Eu HB Hi Hreset ->].
    - destruct (build_facts B T S HT HS fuel T S root (tN_root T) (sN_root S) (root_t_ok B T HT HV) HB) as (_ & _ & F).
      destruct (F v Hv) as (_ & _ & _ & Q & _). exact Q.
    - rewrite preorder_eq in Hv. destruct Hv as [<-|Hv]; [reflexivity|]. cbn [rt_children] in Hv.
      apply in_concat in Hv. destruct Hv as (x & Hx & Hv). apply in_map_iff in Hx. destruct Hx as (c & <- & Hc).
      pose proof (reset_Col B T S HT HS p f root0 cs Ep (Sta_root B T S HT HV Hrem Hi fuel root0 HB) Hreset c Hc) as ((f' & A1) & A2 & A3 & A4 & A5 & _).
      destruct (build_facts B T S HT HS f' _ _ c A2 A3 A4 A1) as (_ & _ & F). destruct (F v Hv) as (_ & _ & _ & Q & _). exact Q.
  Qed.

  Lemma final_root_clusters : forall root, final_root B T S root -> b_s (rt_val root) = S /\
    ((in_part B T = true /\ b_t (rt_val root) = T) \/
     (exists p, in_part B T = false /\ bb_tpart B = Some p /\ nth_error (bb_tparts B) p = Some (b_t (rt_val root)))).
  Proof.
    intros root HR. destruct HR as [fuel Hi HB|fuel root0 p u cs f Ep Eu HB Hi Hreset ->].
    - destruct (build_root_info B _ _ _ _ HB) as [E1 E2]. auto.
    - cbn. split; [reflexivity|]. right. exists p. auto.
  Qed.

  Lemma final_root_task : forall root, final_root B T S root -> part_valid B T -> rt_children root = [] \/ b_task (rt_val root) = None.
  Proof.
    intros root HR HV. destruct HR as [fuel Hi HB|fuel root0 p u cs f Ep Eu HB Hi Hreset ->]; [|right; reflexivity].
    destruct (build_facts B T S HT HS fuel T S root (tN_root T) (sN_root S) (root_t_ok B T HT HV) HB) as (_ & _ & F).
    assert (Fr : node_facts B T S root) by (apply F; destruct root; rewrite preorder_eq; left; reflexivity).
    destruct Fr as (_ & _ & _ & _ & Q). destruct (b_task (rt_val root)); [left; apply Q|right; reflexivity].
  Qed.
End Facts.

(** *** One tree, symmetric *)

Local Notation iv := interval.
  Definition disj (t s : ctree) : Prop := c_off t + c_size t <= c_off s \/ c_off s + c_size s <= c_off t.

  Lemma in_iff : forall i u, in_iv i (iv u) = true <-> c_off u <= i < c_off u + c_size u.
  Proof.
    intros i u. unfold in_iv, interval, c_off, c_size. cbn [fst snd]. rewrite andb_true_iff, Nat.leb_le, Nat.ltb_lt. tauto.
  Qed.
  Lemma contains_iff : forall a b, contains a b = true <-> c_off a <= c_off b /\ c_off b + c_size b <= c_off a + c_size a.
  Proof. intros a b. unfold contains. rewrite andb_true_iff, !Nat.leb_le. lia. Qed.

  Lemma tiles_in : forall lo hi l k, tiles lo hi (map iv l) -> In k l -> lo <= c_off k /\ c_off k + c_size k <= hi.
  Proof.
    intros lo hi l k. revert lo. induction l as [|x l IH]; intros lo H Hk; [contradiction|].
    cbn [map] in H. unfold interval in H at 1. destruct H as [H1 H2]. fold (c_off x) in *. fold (c_size x) in *.
    pose proof (tiles_le _ _ _ H2). destruct Hk as [<-|Hk]; [lia|]. specialize (IH _ H2 Hk). lia.
  Qed.

  Lemma tiles_pair : forall lo hi l a b, tiles lo hi (map iv l) -> In a l -> In b l -> a = b \/ disj a b.
  Proof.
    intros lo hi l a b. revert lo. induction l as [|x l IH]; intros lo H Ha Hb; [contradiction|].
    cbn [map] in H. unfold interval in H at 1. destruct H as [H1 H2]. fold (c_off x) in *. fold (c_size x) in *.
    destruct Ha as [<-|Ha], Hb as [<-|Hb]; auto.
    - right. pose proof (tiles_in _ _ _ _ H2 Hb). unfold disj. lia.
    - right. pose proof (tiles_in _ _ _ _ H2 Ha). unfold disj. lia.
    - eapply IH; eauto.
  Qed.

  Lemma tiles_find : forall lo hi l i, tiles lo hi (map iv l) -> lo <= i < hi -> exists k, In k l /\ in_iv i (iv k) = true.
  Proof.
    intros lo hi l i. revert lo. induction l as [|x l IH]; intros lo H Hi; [cbn in H; lia|].
    cbn [map] in H. unfold interval in H at 1. destruct H as [H1 H2]. fold (c_off x) in *. fold (c_size x) in *.
    destruct (Nat.lt_ge_cases i (c_off x + c_size x)) as [Q|Q].
    - exists x. split; [left; reflexivity|]. apply in_iff. lia.
    - destruct (IH _ H2) as (k & Hk & Q'); [lia|]. exists k. split; [right; exact Hk|exact Q'].
  Qed.


Section Sym.
  Variable B : bbuild.
  Variable T : ctree.
  Hypothesis HT : partitioned T (bb_tparts B).
  Hypothesis HP : bb_sparts B = bb_tparts B.
  Hypothesis NT : nonempty T.
  Hypothesis HC : bb_cons B = true.
  (** Cluster of the symmetric part: the root, or the part of the process. *)
  Variable R : ctree.
  Hypothesis HR : (bb_tpart B = None /\ bb_qpart B = None /\ R = T) \/
    (exists q, bb_tpart B = Some q /\ bb_qpart B = Some q /\ nth_error (bb_tparts B) q = Some R /\
       (R = T \/ ((c_rank T < 0)%Z /\ contains T R = true))).

  Notation tN t := (In t (ct_nodes T)).

  Lemma HS' : partitioned T (bb_sparts B). Proof. rewrite HP. exact HT. Qed.

  Lemma size_pos : forall u, tN u -> 0 < c_size u. Proof. exact NT. Qed.

  Lemma child_tiles : forall u, tN u -> ct_children u <> [] -> tiles (c_off u) (c_off u + c_size u) (map iv (ct_children u)).
  Proof. intros u Hu Hc. destruct (pt_node _ _ HT u Hu); [contradiction|assumption]. Qed.

  Lemma child_in : forall u k, tN u -> In k (ct_children u) -> c_off u <= c_off k /\ c_off k + c_size k <= c_off u + c_size u.
  Proof.
    intros u k Hu Hk. eapply tiles_in; [|exact Hk]. apply child_tiles; [exact Hu|]. intros E. rewrite E in Hk. contradiction.
  Qed.

  Lemma kid_node : forall u k, tN u -> In k (ct_children u) -> tN k.
  Proof. intros u k Hu Hk. eapply nodes_trans; [exact Hu|apply nodes_kid, Hk]. Qed.

  Lemma node_in : forall u v, tN u -> In v (ct_nodes u) -> c_off u <= c_off v /\ c_off v + c_size v <= c_off u + c_size u.
  Proof.
    intros u. induction u as [c ts IH] using ctree_ind'. intros v Hu Hv.
    destruct (In_nodes_inv _ _ _ Hv) as [->|(k & Hk & Hv')]; [lia|].
    specialize (IH k Hk v (kid_node _ _ Hu Hk) Hv'). pose proof (child_in (CNode c ts) k Hu Hk). lia.
  Qed.

  Lemma R_node : tN R.
  Proof.
    destruct HR as [(_ & _ & ->)|(q & _ & _ & Eq & [->|[Hn Hc]])]; [apply tN_root|apply tN_root|].
    destruct (pt_above _ _ HT T (tN_root T) Hn) as (_ & Hd & _).
    destruct (Hd R) as (k & Hk & Q); [apply filter_In; split; [eapply nth_error_In; eauto|exact Hc]|].
    eapply nodes_trans; [apply nodes_kid, Hk|exact Q].
  Qed.

  Lemma part_valid_S : part_valid B T.
  Proof.
    unfold part_valid. destruct HR as [(-> & _)|(q & -> & _ & -> & Q)]; [exact I|exact Q].
  Qed.

  (** A cluster that meets the part lies in it or contains it. *)
  Lemma meets : forall q s i, nth_error (bb_tparts B) q = Some R -> tN s -> in_iv i (iv s) = true -> in_iv i (iv R) = true ->
    (c_rank s < 0)%Z /\ contains s R = true \/ (0 <= c_rank s)%Z /\ contains R s = true /\ c_rank s = Z.of_nat q.
  Proof.
    intros q s i Eq Hs Hi HiR. destruct (Z.ltb_spec (c_rank s) 0) as [Hr|Hr].
    - left. split; [exact Hr|]. destruct (pt_above _ _ HT s Hs Hr) as (_ & _ & _ & Tl).
      destruct (tiles_find _ _ _ i Tl) as (v & Hv & Hiv). { apply in_iff in Hi. exact Hi. }
      apply filter_In in Hv. destruct Hv as [Hv Hc]. destruct (In_nth_error _ _ Hv) as [r Er].
      pose proof (pt_disjoint _ _ HT _ _ _ _ i Er Eq Hiv HiR). subst r. congruence.
    - right. split; [exact Hr|]. destruct (pt_below _ _ HT s Hs Hr) as [(v & Ev & Hsub) _].
      pose proof (pt_disjoint _ _ HT _ _ _ _ i Ev Eq (Hsub i Hi) HiR) as E. unfold c_rank in *. split; [|lia].
      rewrite E, Eq in Ev. injection Ev as <-. apply contains_iff.
      pose proof (size_pos s Hs). pose proof (Hsub (c_off s)) as A. pose proof (Hsub (c_off s + c_size s - 1)) as C.
      rewrite !in_iff in A, C. lia.
  Qed.

  (** Removal, spelled out. *)
  Lemma removed_in : forall t s, tN t -> tN s -> removed B t s = true ->
    contains R t = true /\ contains R s = true /\
    match bb_uplo B with UpN => False | UpL => c_off t + c_size t <= c_off s | UpU => c_off s + c_size s <= c_off t end.
  Proof.
    intros t s Ht Hs H. unfold removed in H. rewrite HP in H.
    pose proof (size_pos t Ht) as Pt. pose proof (size_pos s Hs) as Ps.
    destruct HR as [(E1 & E2 & ER)|(q & E1 & E2 & E3 & E4)].
    - rewrite E2 in H. rewrite ER, !contains_iff. pose proof (node_in T t (tN_root T) Ht). pose proof (node_in T s (tN_root T) Hs).
      destruct (bb_uplo B); [discriminate| |]; rewrite andb_true_r in H; apply Nat.leb_le in H; lia.
    - rewrite E2, E3 in H. destruct (bb_uplo B); [discriminate| |].
      + repeat (apply andb_true_iff in H; destruct H as [H ?]). repeat (match goal with Q : _ && _ = true |- _ => apply andb_true_iff in Q; destruct Q end).
        rewrite !Nat.leb_le in *. rewrite Nat.ltb_lt in *.
        destruct (meets q s (c_off s) E3 Hs) as [[_ Q]|(_ & Q & _)]; [apply in_iff; lia|apply in_iff; lia| |].
        * apply contains_iff in Q. lia.
        * split; [apply contains_iff; lia|]. split; [exact Q|lia].
      + repeat (apply andb_true_iff in H; destruct H as [H ?]). repeat (match goal with Q : _ && _ = true |- _ => apply andb_true_iff in Q; destruct Q end).
        rewrite !Nat.leb_le in *. rewrite !contains_iff. lia.
  Qed.

  Lemma removed_intro : forall t s, tN t -> tN s -> contains R t = true -> contains R s = true ->
    match bb_uplo B with UpN => False | UpL => c_off t + c_size t <= c_off s | UpU => c_off s + c_size s <= c_off t end ->
    removed B t s = true.
  Proof.
    intros t s Ht Hs H1 H2 H. unfold removed. rewrite HP. apply contains_iff in H1, H2.
    pose proof (size_pos t Ht) as Pt. pose proof (size_pos s Hs) as Ps.
    destruct HR as [(E1 & E2 & ER)|(q & E1 & E2 & E3 & E4)].
    - rewrite E2. destruct (bb_uplo B); [contradiction| |]; rewrite andb_true_r; apply Nat.leb_le; lia.
    - rewrite E2, E3. destruct (bb_uplo B); [contradiction| |]; repeat (apply andb_true_iff; split);
        first [apply Nat.ltb_lt; lia|apply Nat.leb_le; lia].
  Qed.

  Hypothesis HU : bb_uplo B <> UpN.
  (** [low i j]: the pair is on the side that is stored. *)
  Definition low (i j : nat) : Prop := match bb_uplo B with UpN => True | UpL => j <= i | UpU => i <= j end.

  Lemma NR_S : forall i j, low i j \/ in_iv j (iv R) = false \/ in_iv i (iv R) = false -> NR B T T i j.
  Proof.
    intros i j H t s Ht Hs Hr. destruct (in_iv i (iv t)) eqn:Ei; [|reflexivity]. destruct (in_iv j (iv s)) eqn:Ej; [|reflexivity].
    exfalso. destruct (removed_in t s Ht Hs Hr) as (C1 & C2 & C3). apply contains_iff in C1, C2. apply in_iff in Ei, Ej.
    unfold low in H. destruct H as [H|[H|H]].
    - destruct (bb_uplo B); [contradiction| |]; lia.
    - apply Bool.not_true_iff_false in H. apply H, in_iff. lia.
    - apply Bool.not_true_iff_false in H. apply H, in_iff. lia.
  Qed.

  (** Either an entry on the stored side, or an entry outside. *)
  Lemma witnessed_S : witnessed B T T.
  Proof.
    intros t s Ht Hs Hr. pose proof (size_pos t Ht) as Pt. pose proof (size_pos s Hs) as Ps.
    destruct (contains R t) eqn:Ct.
    - destruct (contains R s) eqn:Cs.
      + assert (Hx : ~ match bb_uplo B with UpN => False | UpL => c_off t + c_size t <= c_off s | UpU => c_off s + c_size s <= c_off t end).
        { intros Q. rewrite (removed_intro t s Ht Hs Ct Cs Q) in Hr. discriminate. }
        assert (Eu : bb_uplo B = UpL \/ bb_uplo B = UpU) by (clear - HU; destruct (bb_uplo B); [congruence|auto|auto]).
        destruct Eu as [Eu|Eu]; rewrite Eu in Hx.
        * exists (c_off t + c_size t - 1), (c_off s). rewrite !in_iff. split; [lia|split; [lia|]].
          apply NR_S. left. unfold low. rewrite Eu. lia.
        * exists (c_off t), (c_off s + c_size s - 1). rewrite !in_iff. split; [lia|split; [lia|]].
          apply NR_S. left. unfold low. rewrite Eu. lia.
      + assert (exists j, in_iv j (iv s) = true /\ in_iv j (iv R) = false) as (j & J1 & J2).
        { apply Bool.not_true_iff_false in Cs. rewrite contains_iff in Cs.
          destruct (Nat.lt_ge_cases (c_off s) (c_off R)) as [Q|Q].
          - exists (c_off s). split; [apply in_iff; lia|]. apply Bool.not_true_iff_false. rewrite in_iff. lia.
          - exists (c_off s + c_size s - 1). split; [apply in_iff; lia|]. apply Bool.not_true_iff_false. rewrite in_iff. lia. }
        exists (c_off t), j. split; [apply in_iff; lia|split; [exact J1|]]. apply NR_S. auto.
    - assert (exists j, in_iv j (iv t) = true /\ in_iv j (iv R) = false) as (j & J1 & J2).
      { apply Bool.not_true_iff_false in Ct. rewrite contains_iff in Ct.
        destruct (Nat.lt_ge_cases (c_off t) (c_off R)) as [Q|Q].
        - exists (c_off t). split; [apply in_iff; lia|]. apply Bool.not_true_iff_false. rewrite in_iff. lia.
        - exists (c_off t + c_size t - 1). split; [apply in_iff; lia|]. apply Bool.not_true_iff_false. rewrite in_iff. lia. }
      exists j, (c_off s). split; [exact J1|split; [apply in_iff; lia|]]. apply NR_S. auto.
  Qed.

  Lemma removed_wide : forall u, contains u R = true -> tN u -> removed B u T = false /\ removed B T T = false.
  Proof.
    intros u Hu Hn. pose proof (size_pos u Hn) as Pu.
    pose proof (size_pos T (tN_root T)). pose proof (node_in T u (tN_root T) Hn).
    split; apply Bool.not_true_iff_false; intros Q.
    - destruct (removed_in u T Hn (tN_root T) Q) as (_ & _ & Q'). destruct (bb_uplo B); [contradiction| |]; lia.
    - destruct (removed_in T T (tN_root T) (tN_root T) Q) as (_ & _ & Q'). destruct (bb_uplo B); [contradiction| |]; lia.
  Qed.

  (** *** Shape of the children in the consistent case *)
  Inductive kid (t s : ctree) : ctree -> ctree -> Prop :=
  | kid_t : forall k, is_leaf s = true -> In k (ct_children t) -> kid t s k s
  | kid_s : forall k, is_leaf t = true -> In k (ct_children s) -> kid t s t k
  | kid_ts : forall k l, In k (ct_children t) -> In l (ct_children s) ->
      ((c_rank t < 0)%Z /\ (c_rank s < 0)%Z \/ (0 <= c_rank t)%Z /\ (0 <= c_rank s)%Z) -> kid t s k l
  | kid_tp : forall k, (c_rank t < 0)%Z -> (0 <= c_rank s)%Z -> In k (bb_tparts B) -> contains t k = true -> kid t s k s
  | kid_sp : forall k, (c_rank s < 0)%Z -> (0 <= c_rank t)%Z -> In k (bb_tparts B) -> contains s k = true -> kid t s t k.

  Lemma branch_kid : forall t s l t' s', branch B t s = inr l -> In (t', s') l -> kid t s t' s'.
  Proof.
    intros t s l t' s' H Hin. unfold branch in H.
    destruct (low_rank_task B t s); [discriminate|].
    destruct (is_leaf s) eqn:Ls, (is_leaf t) eqn:Lt; cbn [andb] in H; try discriminate.
    - injection H as <-. apply in_map_iff in Hin. destruct Hin as (k & E & Hk). injection E as <- <-. apply filter_In in Hk.
      apply kid_t; [exact Ls|apply Hk].
    - injection H as <-. apply in_map_iff in Hin. destruct Hin as (k & E & Hk). injection E as <- <-. apply filter_In in Hk.
      apply kid_s; [exact Lt|apply Hk].
    - rewrite HC in H. destruct (Z.ltb_spec (c_rank t) 0) as [Et|Et], (Z.leb_spec 0 (c_rank s)) as [Es|Es]; cbn [andb] in H.
      + injection H as <-. apply in_map_iff in Hin. destruct Hin as (k & E & Hk). injection E as <- <-. apply filter_In in Hk.
        destruct Hk as [Hk Q]. apply andb_true_iff in Q. apply kid_tp; try assumption. apply Q.
      + assert (Q : (c_rank s <? 0)%Z && (0 <=? c_rank t)%Z = false).
        { apply andb_false_iff. right. apply Z.leb_gt. exact Et. }
        rewrite Q in H. injection H as <-. apply in_concat in Hin. destruct Hin as (x & Hx & Hin). apply in_map_iff in Hx.
        destruct Hx as (k & <- & Hk). apply in_map_iff in Hin. destruct Hin as (k' & E & Hk'). injection E as <- <-.
        apply filter_In in Hk'. apply kid_ts; [exact Hk|apply Hk'|left; auto].
      + assert (Q : (c_rank s <? 0)%Z && (0 <=? c_rank t)%Z = false).
        { apply andb_false_iff. left. apply Z.ltb_ge. exact Es. }
        rewrite Q in H. injection H as <-. apply in_concat in Hin. destruct Hin as (x & Hx & Hin). apply in_map_iff in Hx.
        destruct Hx as (k & <- & Hk). apply in_map_iff in Hin. destruct Hin as (k' & E & Hk'). injection E as <- <-.
        apply filter_In in Hk'. apply kid_ts; [exact Hk|apply Hk'|right; auto].
      + assert (Q : (c_rank s <? 0)%Z && (0 <=? c_rank t)%Z = true).
        { apply andb_true_iff. split; [apply Z.ltb_lt|apply Z.leb_le]; assumption. }
        rewrite Q in H. injection H as <-. apply in_map_iff in Hin. destruct Hin as (k & E & Hk). injection E as <- <-.
        apply filter_In in Hk. destruct Hk as [Hk Q']. apply andb_true_iff in Q'. rewrite HP in Hk. apply kid_sp; try assumption. apply Q'.
  Qed.

  Lemma leaf_nonneg : forall u, tN u -> is_leaf u = true -> (0 <= c_rank u)%Z.
  Proof. intros u Hu Hl. eapply (leaf_rank B T); eauto. Qed.

  Definition eqdisj (t s : ctree) : Prop := t = s \/ disj t s.

  Lemma kid_eqdisj : forall t s t' s', tN t -> tN s -> eqdisj t s -> kid t s t' s' -> eqdisj t' s'.
  Proof.
    intros t s t' s' Ht Hs H K. destruct K as [k L Hk|k L Hk|k l Hk Hl Hr|k R1 R2 Hk C|k R1 R2 Hk C].
    - destruct H as [->|H]; [apply is_leaf_children in L; rewrite L in Hk; contradiction|].
      right. pose proof (child_in t k Ht Hk). unfold disj in *. lia.
    - destruct H as [->|H]; [apply is_leaf_children in L; rewrite L in Hk; contradiction|].
      right. pose proof (child_in s k Hs Hk). unfold disj in *. lia.
    - destruct H as [->|H].
      + eapply tiles_pair; [apply (child_tiles s Hs)|exact Hk|exact Hl]. intros E. rewrite E in Hk. contradiction.
      + right. pose proof (child_in t k Ht Hk). pose proof (child_in s l Hs Hl). unfold disj in *. lia.
    - destruct H as [->|H]; [lia|]. right. apply contains_iff in C. unfold disj in *. lia.
    - destruct H as [->|H]; [lia|]. right. apply contains_iff in C. unfold disj in *. lia.
  Qed.

  Definition is_part (u : ctree) : Prop := nth_error (bb_tparts B) (Z.to_nat (c_rank u)) = Some u.

  Lemma in_parts_is_part : forall k, In k (bb_tparts B) -> is_part k /\ (0 <= c_rank k)%Z.
  Proof.
    intros k Hk. destruct (In_nth_error _ _ Hk) as [r Er]. pose proof (pt_rank _ _ HT _ _ Er) as Q.
    unfold is_part, c_rank. rewrite Q, Nat2Z.id. split; [exact Er|lia].
  Qed.

  Lemma first_is_part : forall u k, tN u -> (c_rank u < 0)%Z -> In k (ct_children u) -> (0 <= c_rank k)%Z -> is_part k.
  Proof. intros u k Hu Hr Hk Hrk. apply (pt_first _ _ HT u k Hu Hr Hk Hrk). Qed.

  Lemma below_rank : forall u k, tN u -> (0 <= c_rank u)%Z -> In k (ct_children u) -> c_rank k = c_rank u.
  Proof. intros u k Hu Hr Hk. apply (proj2 (pt_below _ _ HT u Hu Hr)), Hk. Qed.

  (** Above the partition the source cluster is above or is a part. *)
  Definition above_ok (t s : ctree) : Prop := (c_rank t < 0)%Z -> (0 <= c_rank s)%Z -> is_part s.

  Lemma kid_above : forall t s t' s', tN t -> tN s -> (c_rank t < 0)%Z -> above_ok t s -> kid t s t' s' ->
    above_ok t' s' /\ ((0 <= c_rank t')%Z -> is_part t' /\ ((0 <= c_rank s')%Z -> is_part s')).
  Proof.
    intros t s t' s' Ht Hs Hr H K. destruct K as [k L Hk|k L Hk|k l Hk Hl Hr'|k R1 R2 Hk C|k R1 R2 Hk C].
    - pose proof (leaf_nonneg s Hs L) as Q. specialize (H Hr Q). split.
      + intros _ _. exact H.
      + intros Q'. split; [eapply first_is_part with (u := t); eauto|auto].
    - pose proof (leaf_nonneg t Ht L). lia.
    - destruct Hr' as [[_ Hs']|[Q _]]; [|lia]. split.
      + intros _ Q. eapply first_is_part with (u := s); eauto.
      + intros Q. split; [eapply first_is_part with (u := t); eauto|]. intros Q'. eapply first_is_part with (u := s); eauto.
    - specialize (H Hr R2). split; [intros _ _; exact H|]. intros _. split; [apply in_parts_is_part, Hk|auto].
    - lia.
  Qed.

  (** *** The blocks reported for symmetry *)
  Definition mark (x : binfo) : bool := negb (c_off (b_t x) =? c_off (b_s x)) && contains R (b_s x).

  (** State of get_leaves_from at a block: [anc], a symmetric ancestor. *)
  Definition state_ok (anc : bool) (t s : ctree) : Prop :=
    eqdisj t s /\ contains R t = true /\ (anc = true -> contains R s = true) /\
    (anc = false -> t = s \/ disj s R \/ ((c_rank s < 0)%Z /\ t = R /\ is_part R)).

  Lemma has_sym_eq : forall t s, tN t -> tN s -> eqdisj t s -> has_sym B t s = true <-> t = s.
  Proof.
    intros t s Ht Hs H. unfold has_sym. pose proof (size_pos t Ht). pose proof (size_pos s Hs).
    destruct (bb_uplo B); [congruence| |]; (split;
      [intros Q; apply andb_true_iff in Q; destruct Q as [Q1 Q2]; apply Nat.eqb_eq in Q1, Q2;
       destruct H as [H|H]; [exact H|unfold disj in H; lia]
      |intros ->; rewrite !Nat.eqb_refl; reflexivity]).
  Qed.
  Lemma part_R_disj : forall v, is_part R -> is_part v -> tN v -> v = R \/ disj v R.
  Proof.
    intros v HRp Hv Hn. unfold is_part in *. pose proof (size_pos v Hn). pose proof (size_pos R R_node).
    destruct (Nat.le_gt_cases (c_off v + c_size v) (c_off R)) as [Q|Q]; [right; unfold disj; lia|].
    destruct (Nat.le_gt_cases (c_off R + c_size R) (c_off v)) as [Q'|Q']; [right; unfold disj; lia|].
    left. assert (E : Z.to_nat (c_rank v) = Z.to_nat (c_rank R)).
    { apply (pt_disjoint _ _ HT _ _ _ _ (Nat.max (c_off v) (c_off R)) Hv HRp); apply in_iff; lia. }
    rewrite E, HRp in Hv. congruence.
  Qed.

  Lemma kid_nodes : forall t s l t' s', tN t -> tN s -> t_ok B t = true -> branch B t s = inr l -> In (t', s') l -> tN t' /\ tN s'.
  Proof.
    intros t s l t' s' Ht Hs Hok Hb Hin. pose proof (branch_kids B T T HT HS' t s l Ht Hs Hok Hb) as K.
    destruct (ko_node _ _ _ _ _ _ K _ Hin) as (A1 & A2 & _). auto.
  Qed.

  Lemma kid_sub : forall t s t' s', tN t -> tN s -> kid t s t' s' ->
    (c_off t <= c_off t' /\ c_off t' + c_size t' <= c_off t + c_size t) /\ (c_off s <= c_off s' /\ c_off s' + c_size s' <= c_off s + c_size s).
  Proof.
    intros t s t' s' Ht Hs K. destruct K as [k L Hk|k L Hk|k l Hk Hl Hr'|k R1 R2 Hk C|k R1 R2 Hk C].
    - pose proof (child_in t k Ht Hk). lia.
    - pose proof (child_in s k Hs Hk). lia.
    - pose proof (child_in t k Ht Hk). pose proof (child_in s l Hs Hl). lia.
    - apply contains_iff in C. lia.
    - apply contains_iff in C. lia.
  Qed.

  Lemma state_kid : forall anc t s t' s', tN t -> tN s -> tN s' -> state_ok anc t s -> kid t s t' s' ->
    state_ok (has_sym B t s || anc) t' s'.
  Proof.
    intros anc t s t' s' Ht Hs Hs' (H1 & H2 & H3 & H4) K.
    pose proof (kid_sub t s t' s' Ht Hs K) as [Sub1 Sub2]. apply contains_iff in H2.
    split; [exact (kid_eqdisj t s t' s' Ht Hs H1 K)|]. split; [apply contains_iff; lia|]. 
    pose proof (has_sym_eq t s Ht Hs H1) as HE.
    split.
    - intros Q. apply contains_iff. apply orb_true_iff in Q. destruct Q as [Q|Q].
      + apply HE in Q. subst s. lia.
      + specialize (H3 Q). apply contains_iff in H3. lia.
    - intros Q. apply orb_false_iff in Q. destruct Q as [Q ->]. specialize (H4 eq_refl).
      assert (Hne : t <> s) by (intros E; apply HE in E; congruence).
      destruct H4 as [E|[D|(Hr & -> & HRp)]]; [contradiction| |].
      + right. left. unfold disj in *. lia.
      + assert (HRr : (0 <= c_rank R)%Z).
        { destruct (in_parts_is_part R); [eapply nth_error_In; exact HRp|assumption]. }
        clear Sub1 Sub2. destruct K as [k L Hk|k L Hk|k l Hk Hl Hr'|k R1 R2 Hk C|k R1 R2 Hk C].
        * pose proof (leaf_nonneg s Hs L). lia.
        * destruct (Z.ltb_spec (c_rank k) 0) as [Z1|Z1]; [right; right; auto|].
          assert (P' : is_part k) by (eapply first_is_part with (u := s); eauto).
          destruct (part_R_disj k HRp P' Hs') as [->|D]; auto.
        * lia.
        * lia.
        * assert (P' : is_part k) by (apply in_parts_is_part; assumption).
          destruct (part_R_disj k HRp P' Hs') as [->|D]; auto.
  Qed.

  Lemma task_s_rank : forall t s k, tN t -> tN s -> branch B t s = inl k -> (0 <= c_rank s)%Z.
  Proof.
    intros t s k Ht Hs H. unfold branch in H. destruct (low_rank_task B t s) eqn:E.
    - unfold low_rank_task in E. rewrite HC in E. repeat (apply andb_true_iff in E; destruct E as [E ?]).
      cbn in *. apply Z.leb_le. assumption.
    - destruct (is_leaf s) eqn:Ls, (is_leaf t) eqn:Lt; cbn [andb] in H; try discriminate.
      + apply leaf_nonneg; assumption.
      + rewrite HC in H. destruct ((c_rank t <? 0)%Z && (0 <=? c_rank s)%Z); [discriminate|].
        destruct ((c_rank s <? 0)%Z && (0 <=? c_rank t)%Z); discriminate.
  Qed.

  Lemma sleaves_mark : forall b anc, (forall u, In u (preorder b) -> full_facts B T T u) ->
    (forall i, In i (rleaves b) -> b_task i <> None) -> state_ok anc (b_t (rt_val b)) (b_s (rt_val b)) ->
    sleaves anc b = filter mark (rleaves b) /\ forall x, In x (rleaves b) -> eqdisj (b_t x) (b_s x) /\ contains R (b_t x) = true.
  Proof.
    induction b as [i cs IH] using rtree_ind'. intros anc HF HK HSt.
    assert (Hself : In (RNode i cs) (preorder (RNode i cs))) by (rewrite preorder_eq; left; reflexivity).
    destruct (HF _ Hself) as ((Ft & Fs & Fok & Fsym & Ftask) & Frem & Fcnt). cbn [rt_val rt_children] in *.
    destruct cs as [|c cs].
    - cbn [rleaves] in *. split; [|intros x [<-|[]]; split; apply HSt]. cbn [sleaves map concat filter]. rewrite app_nil_r.
      destruct HSt as (H1 & H2 & H3 & H4). unfold mark.
      destruct (b_task i) as [k|] eqn:Ek; [|exfalso; apply (HK i (or_introl eq_refl)), Ek].
      destruct Ftask as (_ & Hb & _). pose proof (task_s_rank _ _ _ Ft Fs Hb) as Rs.
      destruct anc.
      + rewrite (H3 eq_refl), andb_true_r. cbn [andb]. reflexivity.
      + cbn [andb]. destruct (H4 eq_refl) as [->|[D|(Q & _)]].
        * rewrite Nat.eqb_refl. reflexivity.
        * destruct (contains R (b_s i)) eqn:C; [|rewrite andb_false_r; reflexivity].
          apply contains_iff in C. pose proof (size_pos _ Fs). unfold disj in D. lia.
        * lia.
    - destruct (b_task i) as [k|]; [destruct Ftask as (Q & _); discriminate|]. destruct Ftask as (l & Hb & Hl).
      set (cs' := c :: cs) in *.
      assert (KID : forall d, In d cs' -> state_ok (b_sym i || anc) (b_t (rt_val d)) (b_s (rt_val d)) ).
      { intros d Hd. assert (Hin : In (b_t (rt_val d), b_s (rt_val d)) l).
        { rewrite <- Hl. apply in_map_iff. exists d. auto. }
        rewrite Fsym. destruct (kid_nodes _ _ _ _ _ Ft Fs Fok Hb Hin) as [N1 N2].
        eapply state_kid; eauto. eapply branch_kid; eauto. }
      assert (IH' : forall d, In d cs' -> sleaves (b_sym i || anc) d = filter mark (rleaves d) /\
         forall x, In x (rleaves d) -> eqdisj (b_t x) (b_s x) /\ contains R (b_t x) = true).
      { intros d Hd. apply IH; [exact Hd| | |apply KID, Hd].
        - intros u Hu. apply HF. rewrite preorder_eq. right. apply in_concat. exists (preorder d). split; [apply in_map, Hd|exact Hu].
        - intros x Hx. apply HK. cbn [rleaves]. apply in_concat. exists (rleaves d). split; [apply in_map, Hd|exact Hx]. }
      assert (Er : rleaves (RNode i cs') = concat (map rleaves cs')) by reflexivity.
      assert (Es : sleaves anc (RNode i cs') = concat (map (sleaves (b_sym i || anc)) cs')) by reflexivity.
      rewrite Er, Es. split.
      + clear - IH'. induction cs' as [|d ds IHd]; [reflexivity|]. cbn [map concat]. rewrite filter_app.
        rewrite (proj1 (IH' d (or_introl eq_refl))), IHd; [reflexivity|]. intros e He. apply IH'. right; exact He.
      + intros x Hx. apply in_concat in Hx. destruct Hx as (y & Hy & Hx). apply in_map_iff in Hy. destruct Hy as (d & <- & Hd).
        apply (IH' d Hd), Hx.
  Qed.

  (** The collected blocks are pairs (part, part above or part). *)
  Definition StaS (b : btree) : Prop := Sta B T T b /\ eqdisj (b_t (rt_val b)) (b_s (rt_val b)) /\ above_ok (b_t (rt_val b)) (b_s (rt_val b)).
  Definition ColS q (b : btree) : Prop := Col B T T q b /\ eqdisj (b_t (rt_val b)) (b_s (rt_val b)) /\
    is_part (b_t (rt_val b)) /\ ((0 <= c_rank (b_s (rt_val b)))%Z -> is_part (b_s (rt_val b))).

  Lemma StaS_child : forall q b c, bb_tpart B = Some q -> StaS b -> In c (rt_children b) ->
    if (c_rank (b_t (rt_val c)) =? Z.of_nat q)%Z then ColS q c else StaS c.
  Proof.
    intros q b c Eq (H1 & H2 & H3) Hc. pose proof (Sta_child B T T HT HS' q b c Eq H1 Hc) as Q.
    destruct H1 as ((f & Hf) & Ht & Hs & Hok & Hr & Hneg).
    destruct (build_sub B _ _ _ _ _ Hf Hc) as (l & Hb & Hin & _).
    pose proof (branch_kid _ _ _ _ _ Hb Hin) as K.
    pose proof (kid_eqdisj _ _ _ _ Ht Hs H2 K) as E'.
    pose proof (kid_above _ _ _ _ Ht Hs Hneg H3 K) as [A1 A2].
    destruct (Z.eqb_spec (c_rank (b_t (rt_val c))) (Z.of_nat q)) as [E|E].
    - destruct A2 as [A2 A3]; [lia|]. split; [exact Q|]. auto.
    - split; [exact Q|auto].
  Qed.

  Lemma rT_wide : removed B T T = false.
  Proof.
    apply (removed_wide T); [|apply tN_root]. pose proof (node_in T R (tN_root T) R_node). apply contains_iff. lia.
  Qed.

  Lemma final_state : forall root, final_root B T T root -> 
    sleaves (b_sym (rt_val root)) root = filter mark (rleaves root) /\
    forall x, In x (rleaves root) -> eqdisj (b_t x) (b_s x) /\ contains R (b_t x) = true.
  Proof.
    intros root Hroot. pose proof rT_wide as Hrem.
    pose proof part_valid_S as HV.
    assert (HL := final_leaves B T T HT HS' HV Hrem).
    assert (Hru : forall p u, bb_tpart B = Some p -> nth_error (bb_tparts B) p = Some u -> removed B u T = false).
    { intros p u Ep Eu. destruct HR as [(E & _)|(q & E1 & E2 & E3 & _)]; [congruence|].
      assert (u = R) by congruence. subst u. apply (removed_wide R); [apply contains_iff; lia|apply R_node]. }
    specialize (HL Hru witnessed_S root Hroot). destruct HL as [_ HL].
    assert (HK : forall i, In i (rleaves root) -> b_task i <> None).
    { intros i Hi. destruct (HL i Hi) as (k & -> & _). discriminate. }
    destruct Hroot as [fuel Hi HB|fuel root0 p u cs f Ep Eu HB Hi Hreset ->].
    - destruct (build_root_info B _ _ _ _ HB) as [E1 E2].
      apply sleaves_mark; [|exact HK|].
      + apply (build_full B T T HT HS' fuel T T root (tN_root T) (sN_root T) (root_t_ok B T HT HV) Hrem HB).
      + rewrite E1, E2. destruct (build_facts B T T HT HS' fuel T T root (tN_root T) (sN_root T) (root_t_ok B T HT HV) HB) as (_ & _ & F).
        assert (Fr : node_facts B T T root) by (apply F; rewrite preorder_eq; left; reflexivity).
        destruct Fr as (_ & _ & _ & Fsym & _). rewrite Fsym, E1, E2.
        assert (has_sym B T T = true) as -> by (apply has_sym_eq; [apply tN_root|apply tN_root|left; reflexivity|reflexivity]).
        assert (RT : contains R T = true).
        { destruct HR as [(_ & _ & ->)|(q & E3 & _ & E4 & [->|[Hn Hc]])]; [apply contains_iff; lia|apply contains_iff; lia|].
          unfold in_part in Hi. rewrite E3 in Hi. apply Z.eqb_eq in Hi. lia. }
        split; [left; reflexivity|]. split; [exact RT|]. split; [auto|discriminate].
    - destruct HR as [(E & _)|(q & E1 & E2 & E3 & E4)]; [congruence|].
      assert (p = q) by congruence. subst p. assert (u = R) by congruence. subst u.
      assert (HRp : is_part R). { unfold is_part, c_rank. rewrite (pt_rank _ _ HT _ _ E3), Nat2Z.id. exact E3. }
      assert (HCol : forall b, In b cs -> ColS q b).
      { apply (reset_inv q StaS (ColS q)) with (5 := Hreset).
        - intros b c H Hc Q. pose proof (StaS_child q b c Ep H Hc) as Q'. rewrite Q in Q'. exact Q'.
        - intros b c H Hc Q. pose proof (StaS_child q b c Ep H Hc) as Q'. rewrite Q in Q'. exact Q'.
        - intros b [<-|[]]. split; [eapply Sta_root; eauto|].
          destruct (build_root_info B _ _ _ _ HB) as [-> ->]. split; [left; reflexivity|].
          intros Q1 Q2. lia.
        - intros b []. }
      cbn [rt_val b_sym].
      assert (STATE : forall b, In b cs -> state_ok (has_sym B R T || has_sym B R T) (b_t (rt_val b)) (b_s (rt_val b))).
      { intros b Hb. destruct (HCol b Hb) as ((_ & Nt & Ns & _ & _ & Rk) & D & P1 & P2).
        assert (Et : b_t (rt_val b) = R). { unfold is_part in P1. rewrite Rk, Nat2Z.id in P1. congruence. }
        rewrite Et in *. split; [exact D|]. split; [apply contains_iff; lia|]. rewrite orb_diag. split.
        - intros Q. unfold has_sym in Q. destruct (bb_uplo B); [discriminate| |];
            apply andb_true_iff in Q; destruct Q as [Q1 Q2]; apply Nat.eqb_eq in Q1, Q2;
            pose proof (node_in T _ (tN_root T) Ns); apply contains_iff; lia.
        - intros _. destruct (Z.ltb_spec (c_rank (b_s (rt_val b))) 0) as [Z1|Z1]; [auto|].
          destruct (part_R_disj _ HRp (P2 Z1) Ns) as [->|D']; auto. }
      assert (HNe : cs <> []).
      { intros ->. apply (HK (mkBinfo R T None (has_sym B R T))); [left; reflexivity|reflexivity]. }
      assert (EACH : forall b, In b cs -> sleaves (has_sym B R T || has_sym B R T) b = filter mark (rleaves b) /\
         forall x, In x (rleaves b) -> eqdisj (b_t x) (b_s x) /\ contains R (b_t x) = true).
      { intros b Hb. apply sleaves_mark; [| |apply STATE, Hb].
        - destruct (HCol b Hb) as (((f' & A1) & A2 & A3 & A4 & A5 & _) & _). exact (build_full B T T HT HS' f' _ _ b A2 A3 A4 A5 A1).
        - intros x Hx. apply HK. destruct cs as [|c cs]; [contradiction|]. cbn [rleaves]. apply in_concat. exists (rleaves b).
          split; [apply in_map, Hb|exact Hx]. }
      destruct cs as [|c cs]; [congruence|]. set (cs' := c :: cs) in *.
      assert (Er : forall i, rleaves (RNode i cs') = concat (map rleaves cs')) by reflexivity.
      assert (Es : forall i, b_sym i = has_sym B R T -> sleaves (has_sym B R T) (RNode i cs') = concat (map (sleaves (has_sym B R T || has_sym B R T)) cs')).
      { intros i Ei. cbn [sleaves]. rewrite Ei. reflexivity. }
      rewrite Er, Es by reflexivity. split.
      + clear - EACH. induction cs' as [|d ds IHd]; [reflexivity|]. cbn [map concat]. rewrite filter_app.
        rewrite (proj1 (EACH d (or_introl eq_refl))), IHd; [reflexivity|]. intros e He. apply EACH. right; exact He.
      + intros x Hx. apply in_concat in Hx. destruct Hx as (y & Hy & Hx). apply in_map_iff in Hy. destruct Hy as (d & <- & Hd).
        apply (EACH d Hd), Hx.
  Qed.

  Lemma count_zero : forall A (f : A -> bool) l, (forall x, In x l -> f x = false) -> count f l = 0.
  Proof. intros A f l H. unfold count. rewrite filter_none; [reflexivity|exact H]. Qed.

  Lemma count_filter : forall A (f g : A -> bool) l, count f (filter g l) = count (fun x => g x && f x) l.
  Proof. intros A f g. unfold count. induction l as [|x l IH]; [reflexivity|]. cbn [filter]. destruct (g x); cbn [filter andb]; [|exact IH]. destruct (f x); cbn [length]; rewrite IH; reflexivity. Qed.

  Lemma count_add : forall A (f g h : A -> bool) l, (forall x, In x l -> b2n (f x) + b2n (g x) = b2n (h x)) ->
    count f l + count g l = count h l.
  Proof.
    intros A f g h. unfold count. induction l as [|x l IH]; intros H; [reflexivity|]. cbn [filter].
    assert (Q : length (filter f l) + length (filter g l) = length (filter h l)) by (apply IH; intros y Hy; apply H; right; exact Hy).
    pose proof (H x (or_introl eq_refl)) as Hx. destruct (f x), (g x), (h x); cbn in *; lia.
  Qed.

  Lemma sym_main : forall fuel root fuel' L Y, build_root B fuel T T = Some root -> get_leaves_from fuel' root = Some (L, Y) ->
    forall i j, in_iv i (iv R) = true -> in_iv j (iv T) = true -> count (covers i j) L + count (covers_mirror i j) Y = 1.
  Proof.
    intros fuel root fuel' L Y Hbr HL i j Hi Hj. pose proof part_valid_S as HV. pose proof rT_wide as Hrem.
    apply (build_root_shape B T T HT HS' HV) in Hbr.
    apply leaves_run_ok in HL. cbn [map concat fst snd app] in HL. rewrite !app_nil_r in HL. destruct HL as [P1 P2].
    assert (Hru : forall p u, bb_tpart B = Some p -> nth_error (bb_tparts B) p = Some u -> removed B u T = false).
    { intros p u Ep Eu. destruct HR as [(E & _)|(q & E1 & E2 & E3 & _)]; [congruence|].
      assert (u = R) by congruence. subst u. apply (removed_wide R); [apply contains_iff; lia|apply R_node]. }
    destruct (final_leaves B T T HT HS' HV Hrem Hru witnessed_S root Hbr) as [H1 H2].
    destruct (final_state root Hbr) as [H3 H4]. rewrite H3 in P2.
    rewrite (count_perm _ _ _ _ P1), (count_perm _ _ _ _ P2). clear P1 P2 H3.
    assert (RT : forall x, in_iv x (iv R) = true -> in_iv x (iv T) = true).
    { intros x Hx. apply in_iff in Hx. apply in_iff. pose proof (node_in T R (tN_root T) R_node). lia. }
    assert (Xone : forall x y, in_iv x (iv R) = true -> in_iv y (iv T) = true -> X B x y (T, T) = 1).
    { intros x y Hx Hy. unfold X. cbn [fst snd]. rewrite (RT x Hx), Hy. unfold rowp.
      destruct HR as [(-> & _)|(q & -> & _ & -> & _)]; [reflexivity|]. rewrite Hx. reflexivity. }
    assert (Meet : forall x k, In x (rleaves root) -> in_iv k (iv (b_s x)) = true -> in_iv k (iv R) = true -> contains R (b_s x) = true).
    { intros x k Hx Hk HkR. destruct (H2 x Hx) as (tk & _ & N1 & N2 & Hb & _).
      pose proof (task_s_rank _ _ _ N1 N2 Hb) as Rs. destruct HR as [(_ & _ & ER)|(q & _ & _ & E3 & _)].
      - rewrite ER. pose proof (node_in T _ (tN_root T) N2). apply contains_iff. lia.
      - destruct (meets q _ k E3 N2 Hk HkR) as [[Q _]|(_ & Q & _)]; [lia|exact Q]. }
    (* a stored block off the diagonal inside the symmetric part is on the stored side *)
    assert (Side : forall x, In x (rleaves root) -> b_t x <> b_s x -> contains R (b_s x) = true ->
       match bb_uplo B with UpN => False | UpL => c_off (b_s x) + c_size (b_s x) <= c_off (b_t x) | UpU => c_off (b_t x) + c_size (b_t x) <= c_off (b_s x) end).
    { intros x Hx Hne Hcs. destruct (H2 x Hx) as (tk & _ & N1 & N2 & _ & _ & _ & Hr). destruct (H4 x Hx) as [[E|D] C]; [contradiction|].
      assert (Q : ~ match bb_uplo B with UpN => False | UpL => c_off (b_t x) + c_size (b_t x) <= c_off (b_s x) | UpU => c_off (b_s x) + c_size (b_s x) <= c_off (b_t x) end).
      { intros Q. rewrite (removed_intro _ _ N1 N2 C Hcs Q) in Hr. discriminate. }
      unfold disj in D. destruct (bb_uplo B); [congruence|lia|lia]. }
    assert (Moff : forall x, In x (rleaves root) -> mark x = true -> b_t x <> b_s x /\ contains R (b_s x) = true).
    { intros x Hx Hm. unfold mark in Hm. apply andb_true_iff in Hm. destruct Hm as [M1 M2]. split; [|exact M2].
      intros E. rewrite E, Nat.eqb_refl in M1. discriminate. }
    rewrite (count_filter _ (covers_mirror i j)).
    assert (Dec : low i j \/ (~ low i j /\ low j i)).
    { unfold low. destruct (bb_uplo B); [auto| |]; lia. }
    destruct (in_iv j (iv R)) eqn:HjR.
    - destruct Dec as [Hlow|[Hnl Hlow]].
      + rewrite (proj2 (H1 i j)) by (apply NR_S; auto). rewrite (Xone i j Hi Hj), count_zero; [reflexivity|].
        intros x Hx. destruct (mark x) eqn:M; [|reflexivity]. cbn [andb]. destruct (Moff x Hx M) as [M1 M2].
        specialize (Side x Hx M1 M2). unfold covers_mirror, covers.
        destruct (in_iv j (iv (b_t x))) eqn:Q1; [|reflexivity]. destruct (in_iv i (iv (b_s x))) eqn:Q2; [|reflexivity].
        exfalso. apply in_iff in Q1, Q2. unfold low in Hlow. destruct (bb_uplo B); [contradiction| |]; lia.
      + rewrite (count_add _ _ _ (covers j i)).
        * rewrite (proj2 (H1 j i)) by (apply NR_S; auto). apply Xone; [exact HjR|apply RT, Hi].
        * intros x Hx. destruct (H4 x Hx) as [[E|D] C].
          -- assert (M : mark x = false) by (unfold mark; rewrite E, Nat.eqb_refl; reflexivity).
             rewrite M. cbn [andb b2n]. unfold covers. rewrite E. rewrite Nat.add_0_r, andb_comm. reflexivity.
          -- destruct (H2 x Hx) as (tk & _ & N1 & N2 & _).
             pose proof (size_pos _ N1) as Z1. pose proof (size_pos _ N2) as Z2.
             assert (Hne : b_t x <> b_s x). { intros E. rewrite E in D. unfold disj in D. lia. }
             assert (C1 : covers i j x = false).
             { unfold covers. destruct (in_iv i (iv (b_t x))) eqn:Q1; [|reflexivity]. destruct (in_iv j (iv (b_s x))) eqn:Q2; [|reflexivity].
               exfalso. specialize (Side x Hx Hne (Meet x j Hx Q2 HjR)). apply in_iff in Q1, Q2. unfold low in Hnl.
               destruct (bb_uplo B); [contradiction| |]; lia. }
             rewrite C1. cbn [b2n plus]. unfold covers_mirror. destruct (covers j i x) eqn:C2; [|rewrite andb_false_r; reflexivity].
             assert (M : mark x = true).
             { unfold covers in C2. apply andb_true_iff in C2. destruct C2 as [_ C2]. unfold mark. rewrite (Meet x i Hx C2 Hi), andb_true_r.
               apply negb_true_iff, Nat.eqb_neq. unfold disj in D. lia. }
             rewrite M. reflexivity.
    - rewrite (proj2 (H1 i j)) by (apply NR_S; auto). rewrite (Xone i j Hi Hj), count_zero; [reflexivity|].
      intros x Hx. destruct (mark x) eqn:M; [|reflexivity]. cbn [andb]. unfold covers_mirror, covers.
      destruct (in_iv j (iv (b_t x))) eqn:Q1; [|reflexivity]. exfalso.
      destruct (H4 x Hx) as [_ C]. apply contains_iff in C. apply in_iff in Q1. apply Bool.not_true_iff_false in HjR.
      apply HjR, in_iff. lia.
  Qed.

  (** The rest of what the hierarchical products need. *)
  Lemma sym_root : forall root, final_root B T T root -> b_t (rt_val root) = R /\ b_s (rt_val root) = T.
  Proof.
    intros root H. destruct (final_root_clusters B T T root H) as [E [[Hi Et]|(p & Hi & Ep & Eu)]]; (split; [|exact E]).
    - rewrite Et. destruct HR as [(_ & _ & ->)|(q & E1 & E2 & E3 & [->|[E4 _]])]; try reflexivity.
      unfold in_part in Hi. rewrite E1 in Hi. apply Z.eqb_eq in Hi. lia.
    - destruct HR as [(E1 & _)|(q & E1 & E2 & E3 & _)]; [congruence|]. assert (p = q) by congruence. subst p. congruence.
  Qed.

  Lemma sym_child : forall root, final_root B T T root -> filter mark (rleaves root) <> [] ->
    existsb (fun c => b_sym (rt_val c)) (rt_children root) = true.
  Proof.
    intros root Hroot Hm. pose proof (final_sym B T T HT HS' root Hroot part_valid_S rT_wide) as HSy.
    destruct (final_state root Hroot) as [_ HE].
    assert (exists x, In x (rleaves root) /\ mark x = true) as (x & Hx & Mx).
    { destruct (filter mark (rleaves root)) as [|x l] eqn:E; [congruence|]. exists x. apply filter_In. rewrite E. left; reflexivity. }
    unfold mark in Mx. apply andb_true_iff in Mx. destruct Mx as [M1 M2]. apply negb_true_iff, Nat.eqb_neq in M1.
    destruct (HE x Hx) as [D CT]. apply contains_iff in M2, CT.
    apply existsb_exists. destruct Hroot as [fuel Hi HB|fuel root0 p u cs f Ep Eu HB Hi Hreset ->].
    - (* the children of the root are the pairs of children *)
      destruct (build_root_info B _ _ _ _ HB) as [E1 E2]. destruct root as [i cs]. cbn [rt_val rt_children] in *.
      destruct (build_facts B T T HT HS' fuel T T _ (tN_root T) (sN_root T) (root_t_ok B T HT part_valid_S) HB) as (_ & _ & F).
      destruct (F (RNode i cs)) as (_ & _ & _ & _ & Q); [rewrite preorder_eq; left; reflexivity|]. cbn [rt_val rt_children] in Q.
      rewrite E1, E2 in Q. destruct (b_task i) as [k|].
      { destruct Q as (-> & _). destruct Hx as [<-|[]]. congruence. }
      destruct Q as (l & Hb & Hl). unfold branch in Hb. destruct (low_rank_task B T T); [discriminate|].
      destruct (is_leaf T) eqn:LT; cbn [andb] in Hb; [discriminate|]. rewrite HC in Hb.
      assert (Q1 : (c_rank T <? 0)%Z && (0 <=? c_rank T)%Z = false).
      { destruct (Z.ltb_spec (c_rank T) 0); cbn; [apply Z.leb_gt; lia|reflexivity]. }
      rewrite Q1 in Hb. injection Hb as Hb.
      destruct (ct_children T) as [|k ks] eqn:Ek; [apply is_leaf_children in Ek; congruence|].
      assert (Hk : In k (ct_children T)) by (rewrite Ek; left; reflexivity).
      assert (Hin : In (k, k) l).
      { rewrite <- Hb. apply in_concat. exists (map (fun l => (k, l)) (filter (fun l => t_ok B k && negb (removed B k l)) (ct_children T))).
        split; [apply in_map_iff; exists k; split; [reflexivity|exact Hk]|]. apply in_map. apply filter_In. split; [exact Hk|].
        apply andb_true_iff. split.
        - unfold t_ok. unfold in_part in *. destruct (bb_tpart B) as [p|]; [|reflexivity]. apply Z.eqb_eq in Hi.
          rewrite (below_rank T k (tN_root T)); [rewrite <- Hi, Z.eqb_refl; reflexivity|lia|exact Hk].
        - apply negb_true_iff. pose proof (size_pos k (kid_node T k (tN_root T) Hk)). unfold removed. destruct (bb_uplo B); [reflexivity| |];
            (replace (_ <=? _) with false; [reflexivity|symmetry; apply Nat.leb_gt; lia]). }
      rewrite <- Hl in Hin. apply in_map_iff in Hin. destruct Hin as (c & Ec & Hc). injection Ec as Ec1 Ec2.
      exists c. split; [exact Hc|]. rewrite HSy.
      + rewrite Ec1, Ec2. apply has_sym_eq; try (apply (kid_node T); [apply tN_root|exact Hk]); [left; reflexivity|reflexivity].
      + rewrite preorder_eq. right. apply in_concat. exists (preorder c). split; [apply in_map, Hc|]. destruct c. rewrite preorder_eq. left; reflexivity.
    - destruct HR as [(E & _)|(q & E1 & E2 & E3 & E4)]; [congruence|].
      assert (p = q) by congruence. subst p. assert (u = R) by congruence. subst u.
      assert (HCol : forall b, In b cs -> ColS q b).
      { apply (reset_inv q StaS (ColS q)) with (5 := Hreset).
        - intros b c H Hc Q. pose proof (StaS_child q b c Ep H Hc) as Q'. rewrite Q in Q'. exact Q'.
        - intros b c H Hc Q. pose proof (StaS_child q b c Ep H Hc) as Q'. rewrite Q in Q'. exact Q'.
        - intros b [<-|[]]. split; [exact (Sta_root B T T HT part_valid_S rT_wide Hi fuel root0 HB)|].
          destruct (build_root_info B _ _ _ _ HB) as [-> ->]. split; [left; reflexivity|].
          intros Q1 Q2. lia.
        - intros b []. }
      destruct cs as [|c0 cs0]; [destruct Hx as [<-|[]]; cbn in M1, M2, CT, D; destruct D as [<-|D]; [congruence|]|].
      { exfalso. pose proof (size_pos R R_node). pose proof (size_pos T (tN_root T)). unfold disj in D.
        pose proof (node_in T R (tN_root T) R_node). lia. }
      set (cs' := c0 :: cs0) in *. assert (Er : forall i, rleaves (RNode i cs') = concat (map rleaves cs')) by reflexivity.
      rewrite Er in Hx. apply in_concat in Hx. destruct Hx as (l & Hl & Hx). apply in_map_iff in Hl. destruct Hl as (c & <- & Hc).
      exists c. split; [exact Hc|]. rewrite HSy.
      + destruct (HCol c Hc) as (((f' & A1) & A2 & A3 & A4 & A5 & A6) & D' & P1 & P2).
        apply has_sym_eq; try assumption. destruct D' as [D'|D']; [exact D'|]. exfalso.
        assert (Et : b_t (rt_val c) = R). { unfold is_part in P1. rewrite A6, Nat2Z.id in P1. congruence. }
        assert (SUB : forall b, (forall u, In u (preorder b) -> node_facts B T T u) -> forall x, In x (rleaves b) ->
          c_off (b_s (rt_val b)) <= c_off (b_s x) /\ c_off (b_s x) + c_size (b_s x) <= c_off (b_s (rt_val b)) + c_size (b_s (rt_val b))).
        { clear - HT HP NT HC HR HU. induction b as [i cs IH] using rtree_ind'. intros HF x Hx.
          destruct cs as [|d ds]; [destruct Hx as [<-|[]]; cbn; lia|]. set (ds' := d :: ds) in *.
          assert (Er : rleaves (RNode i ds') = concat (map rleaves ds')) by reflexivity. rewrite Er in Hx.
          apply in_concat in Hx. destruct Hx as (l & Hl & Hx). apply in_map_iff in Hl. destruct Hl as (e & <- & He).
          assert (Sub : forall u, In u (preorder e) -> In u (preorder (RNode i ds'))).
          { intros u Hu. rewrite preorder_eq. right. apply in_concat. exists (preorder e). split; [apply in_map, He|exact Hu]. }
          pose proof (IH e He (fun u Hu => HF u (Sub u Hu)) x Hx) as Q1.
          destruct (HF (RNode i ds')) as (F1 & F2 & F3 & _ & F4); [rewrite preorder_eq; left; reflexivity|]. cbn [rt_val rt_children] in *.
          destruct (b_task i); [destruct F4 as (F4 & _); discriminate|]. destruct F4 as (l & Hb & Hl).
          assert (Hin : In (b_t (rt_val e), b_s (rt_val e)) l) by (rewrite <- Hl; apply in_map_iff; exists e; auto).
          pose proof (kid_sub _ _ _ _ F1 F2 (branch_kid _ _ _ _ _ Hb Hin)) as [_ Q2]. lia. }
        destruct (build_facts B T T HT HS' f' _ _ c A2 A3 A4 A1) as (_ & _ & F).
        pose proof (SUB c F x Hx) as Q. rewrite Et in D'.
        assert (0 < c_size (b_s x)).
        { destruct (rleaves_node c x Hx) as (v & Hv & <- & _). destruct (F v Hv) as (_ & Fs & _). apply size_pos, Fs. }
        unfold disj in D'. lia.
      + rewrite preorder_eq. right. apply in_concat. exists (preorder c). split; [apply in_map, Hc|]. destruct c. rewrite preorder_eq. left; reflexivity.
  Qed.

  Lemma sym_extra : forall fuel root fuel' L Y, build_root B fuel T T = Some root -> get_leaves_from fuel' root = Some (L, Y) ->
    b_t (rt_val root) = R /\ b_s (rt_val root) = T /\
    (forall x, In x L -> b_task x <> None /\ tN (b_t x) /\ tN (b_s x) /\ contains R (b_t x) = true /\ b_sym x = has_sym B (b_t x) (b_s x)) /\
    (forall x, In x Y -> In x L /\ contains R (b_s x) = true) /\
    (Y <> [] -> existsb (fun c => b_sym (rt_val c)) (rt_children root) = true).
  Proof.
    intros fuel root fuel' L Y Hbr HL. pose proof part_valid_S as HV. pose proof rT_wide as Hrem.
    apply (build_root_shape B T T HT HS' HV) in Hbr.
    apply leaves_run_ok in HL. cbn [map concat fst snd app] in HL. rewrite !app_nil_r in HL. destruct HL as [P1 P2].
    assert (Hru : forall p u, bb_tpart B = Some p -> nth_error (bb_tparts B) p = Some u -> removed B u T = false).
    { intros p u Ep Eu. destruct HR as [(E & _)|(q & E1 & E2 & E3 & _)]; [congruence|].
      assert (u = R) by congruence. subst u. apply (removed_wide R); [apply contains_iff; lia|apply R_node]. }
    destruct (final_leaves B T T HT HS' HV Hrem Hru witnessed_S root Hbr) as [_ H2].
    destruct (final_state root Hbr) as [H3 H4]. rewrite H3 in P2. destruct (sym_root root Hbr) as [E1 E2].
    split; [exact E1|]. split; [exact E2|]. split; [|split].
    - intros x Hx. apply (Permutation_in _ P1) in Hx. destruct (H2 x Hx) as (k & Ek & N1 & N2 & _).
      split; [congruence|]. split; [exact N1|]. split; [exact N2|]. split; [apply (H4 x Hx)|].
      destruct (rleaves_node root x Hx) as (u & Hu & <- & _). apply (final_sym B T T HT HS' root Hbr HV Hrem u Hu).
    - intros x Hx. apply (Permutation_in _ P2) in Hx. apply filter_In in Hx. destruct Hx as [Hx Mx].
      split; [apply (Permutation_in _ (Permutation_sym P1)), Hx|]. unfold mark in Mx. apply andb_true_iff in Mx. apply Mx.
    - intros HY. apply (sym_child root Hbr). intros E. rewrite E in P2. symmetry in P2. apply Permutation_nil in P2. contradiction.
  Qed.
End Sym.
