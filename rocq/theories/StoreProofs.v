(** * Proofs about the storage of hierarchical matrices: the coefficients of the leaves are counted entry by entry. *)

From Coq Require Import List Arith ZArith QArith Bool Lia Permutation.
From Verif Require Import ClusterModel ClusterSpec IOModel IOSpec IOProofs BlockModel BlockSpec BlockProofs BlockFinal BlockSym Algebra BlasModel HMatModel HMatSpec HMatBuild DistModel InfoModel P_Info DiagProofs.
Import ListNotations.
Local Open Scope Z_scope.

Notation zlsum l f := (@lsum Zc _ l f).
Notation zsum n f := (@sum Zc n f).

Section Sums.
  Lemma zsum_le : forall n (f g : nat -> Z), (forall i, (i < n)%nat -> f i <= g i) -> zsum n f <= zsum n g.
  Proof. induction n as [|n IH]; intros f g H; cbn [sum]; [apply Z.le_refl|]. change (cadd Zc) with Z.add. specialize (IH f g (fun i Hi => H i ltac:(lia))). specialize (H n ltac:(lia)). lia. Qed.
  Lemma zlsum_le : forall A (l : list A) (f g : A -> Z), (forall a, In a l -> f a <= g a) -> zlsum l f <= zlsum l g.
  Proof. intros A l f g H. induction l as [|a l IH]; cbn [lsum]; [apply Z.le_refl|]. change (cadd Zc) with Z.add. specialize (IH (fun b Hb => H b (or_intror Hb))). specialize (H a (or_introl eq_refl)). lia. Qed.
  Lemma zsum_const : forall n a, zsum n (fun _ => a) = Z.of_nat n * a.
  Proof. induction n as [|n IH]; intros a; [reflexivity|]. cbn [sum]. rewrite IH. change (cadd Zc) with Z.add. rewrite Nat2Z.inj_succ. lia. Qed.
  Lemma zsum_lower : forall n, zsum n (fun i => zsum n (fun j => if (j <=? i)%nat then 2 else 0)) = Z.of_nat n * (Z.of_nat n + 1).
  Proof.
    intros n. transitivity (zsum n (fun i => 2 * (Z.of_nat i + 1))).
    - apply (sum_ext Zc). intros i Hi.
      assert (G : forall m, zsum m (fun j => if (j <=? i)%nat then 2 else 0) = 2 * Z.of_nat (Nat.min m (S i))).
      { induction m as [|m IH]; [reflexivity|]. cbn [sum]. rewrite IH. change (cadd Zc) with Z.add. destruct (Nat.leb_spec m i); lia. }
      rewrite G. lia.
    - induction n as [|n IH]; [reflexivity|]. cbn [sum]. change (cadd Zc) with Z.add in *. rewrite IH. lia.
  Qed.
End Sums.

Section Tiling.
  Variable K : Coef.
  Notation hinfo := (hinfo K).
  Definition zbsum (t s : ctree) (f : nat -> nat -> Z) : Z := zsum (c_size t) (fun i => zsum (c_size s) (fun j => f (c_off t + i)%nat (c_off s + j)%nat)).

  Lemma zwindow : forall (t : ctree) o n (f : nat -> Z), (o <= c_off t)%nat -> (c_off t + c_size t <= o + n)%nat ->
    zsum n (fun i => if in_iv (o + i) (interval t) then f (o + i)%nat else 0) = zsum (c_size t) (fun i => f (c_off t + i)%nat).
  Proof.
    intros t o n f H1 H2. pose proof (sum_window Zc n (c_off t - o) (c_size t) (fun i => f (o + i)%nat) ltac:(lia)) as W.
    etransitivity; [|etransitivity; [exact W|]].
    - apply (sum_ext Zc). intros i Hi. unfold in_iv, interval. cbn [fst snd]. fold (c_off t) (c_size t).
      destruct (Nat.leb_spec (c_off t) (o + i)); destruct (Nat.leb_spec (c_off t - o) i); destruct (Nat.ltb_spec (o + i) (c_off t + c_size t)); destruct (Nat.ltb_spec i (c_off t - o + c_size t)); try reflexivity; lia.
    - apply (sum_ext Zc). intros i Hi. f_equal. lia.
  Qed.
  Lemma zwindow2 : forall (t s P Q : ctree) f, contains P t = true -> contains Q s = true ->
    zbsum P Q (fun i j => if in_iv i (interval t) && in_iv j (interval s) then f i j else 0) = zbsum t s f.
  Proof.
    intros t s P Q f H1 H2. unfold contains in H1, H2. apply andb_true_iff in H1, H2. destruct H1 as [A1 A2]. destruct H2 as [B1 B2]. apply Nat.leb_le in A1, A2, B1, B2.
    unfold zbsum. rewrite <- (zwindow t (c_off P) (c_size P) (fun i => zsum (c_size s) (fun j => f i (c_off s + j)%nat))) by lia.
    apply (sum_ext Zc). intros i Hi. destruct (in_iv (c_off P + i) (interval t)); cbn [andb].
    - apply (zwindow s (c_off Q) (c_size Q) (fun j => f (c_off P + i)%nat j)); lia.
    - rewrite (zsum_const (c_size Q) 0). change (c0 Zc) with 0. lia.
  Qed.
  Lemma zbsum_lsum : forall A (l : list A) P Q (F : A -> nat -> nat -> Z), zbsum P Q (fun i j => zlsum l (fun a => F a i j)) = zlsum l (fun a => zbsum P Q (F a)).
  Proof. intros A l P Q F. unfold zbsum. symmetry. rewrite (lsum_sum Zc). apply (sum_ext Zc). intros i Hi. rewrite (lsum_sum Zc). reflexivity. Qed.
  Lemma zbsum_ext : forall P Q f g, (forall i j, in_iv i (interval P) = true -> in_iv j (interval Q) = true -> f i j = g i j) -> zbsum P Q f = zbsum P Q g.
  Proof. intros P Q f g H. apply (sum_ext Zc). intros i Hi. apply (sum_ext Zc). intros j Hj. apply H; apply in_ivb; lia. Qed.
  Lemma zbsum_plus : forall P Q f g, zbsum P Q (fun i j => f i j + g i j) = zbsum P Q f + zbsum P Q g.
  Proof. intros. unfold zbsum. etransitivity; [|exact (sum_add Zc _ _ _)]. apply (sum_ext Zc). intros. exact (sum_add Zc _ _ _). Qed.
  Lemma zbsum_swap : forall P Q f, zbsum P Q f = zbsum Q P (fun j i => f i j).
  Proof. intros. unfold zbsum. apply (sum_swap Zc). Qed.
  Lemma zbsum_nonneg : forall P Q f, (forall i j, 0 <= f i j) -> 0 <= zbsum P Q f.
  Proof.
    intros P Q f H. unfold zbsum. apply Z.le_trans with (zsum (c_size P) (fun _ => 0)); [rewrite zsum_const; lia|]. apply zsum_le. intros i _.
    apply Z.le_trans with (zsum (c_size Q) (fun _ => 0)); [rewrite zsum_const; lia|]. apply zsum_le. intros j _. apply H.
  Qed.
  Lemma zbsum_const : forall P Q a, zbsum P Q (fun _ _ => a) = Z.of_nat (c_size P) * Z.of_nat (c_size Q) * a.
  Proof. intros. unfold zbsum. rewrite (zsum_const (c_size Q) a), zsum_const. lia. Qed.

  (** The leaves and the mirror images of the leaves for symmetry cover the root once. *)
  Lemma ztiling : forall (r : hinfo) L Y sy f, well_formed r L Y sy ->
    zbsum (h_t r) (h_s r) f = zlsum L (fun h => zbsum (h_t h) (h_s h) f) + zlsum Y (fun h => zbsum (h_t h) (h_s h) (fun i j => f j i)).
  Proof.
    intros r L Y sy f W.
    transitivity (zbsum (h_t r) (h_s r) (fun i j => zlsum L (fun h => if hcovers i j h then f i j else 0) + zlsum Y (fun h => if hcovers j i h then f i j else 0))).
    { apply zbsum_ext. intros i j Hi Hj. pose proof (wf_once _ _ _ _ _ W i j Hi Hj) as O.
      pose proof (lsum_filter Zc _ L (hcovers i j) (f i j)) as E1. pose proof (lsum_filter Zc _ Y (hcovers j i) (f i j)) as E2.
      change (c0 Zc) with 0 in E1, E2. etransitivity; [symmetry; apply (nmul_1 Zc)|]. rewrite <- O. unfold count. rewrite (nmul_add Zc). rewrite <- E1, <- E2. reflexivity. }
    rewrite zbsum_plus. f_equal.
    - rewrite zbsum_lsum. apply (lsum_ext Zc). intros h Hh. destruct (wf_in _ _ _ _ _ W h Hh) as [C1 C2].
      exact (zwindow2 (h_t h) (h_s h) (h_t r) (h_s r) f C1 C2).
    - rewrite zbsum_lsum. apply (lsum_ext Zc). intros h Hh. destruct (wf_sub _ _ _ _ _ W h Hh) as (_ & C1 & C2).
      rewrite zbsum_swap. etransitivity; [|exact (zwindow2 (h_t h) (h_s h) (h_s r) (h_t r) (fun i j => f j i) C2 C1)]. reflexivity.
  Qed.

  (** ** Twice the number of coefficients stored for a block (P_Info.stored) *)
  Definition stored2 (h : hinfo) : Z :=
    match h_data h with
    | DLow L => 2 * (Z.of_nat (lrank L) * (Z.of_nat (c_size (h_t h)) + Z.of_nat (c_size (h_s h))))
    | _ => match h_sym h with
           | SyN => 2 * (Z.of_nat (c_size (h_t h)) * Z.of_nat (c_size (h_s h)))
           | _ => Z.of_nat (c_size (h_t h)) * (Z.of_nat (c_size (h_s h)) + 1)
           end
    end.
  Lemma stored2_ok : forall h, (stored h == inject_Z (stored2 h) / 2)%Q.
  Proof.
    intros h. unfold stored, stored2, qn. destruct (h_data h); try destruct (h_sym h);
      rewrite ?inject_Z_mult, ?inject_Z_plus; change (inject_Z 1) with 1%Q; change (inject_Z 2) with 2%Q; field.
  Qed.
  Lemma stored2_nonneg : forall h, 0 <= stored2 h.
  Proof. intros h. unfold stored2. destruct (h_data h); try destruct (h_sym h); nia. Qed.
  Lemma qtotal_stored : forall l : list hinfo, (qtotal stored l == inject_Z (zlsum l stored2) / 2)%Q.
  Proof.
    induction l as [|h l IH]; [reflexivity|]. unfold qtotal in *. cbn [fold_right]. rewrite IH, stored2_ok. cbn [lsum].
    change (cadd Zc) with Z.add. rewrite inject_Z_plus. field.
  Qed.
  Lemma leaves_filter : forall b : btree, map rt_val (filter (fun u => match rt_children u with [] => true | _ => false end) (preorder b)) = rleaves b.
  Proof.
    intros b. induction b as [i cs IH] using rtree_ind'. rewrite preorder_eq, rleaves_eq. cbn [filter rt_children]. destruct cs as [|c cs]; [reflexivity|]. cbn [app].
    revert IH. generalize (c :: cs). intros l IH. clear c cs. induction l as [|c l IHl]; [reflexivity|]. cbn [map concat]. rewrite filter_app, map_app.
    rewrite (IH c (or_introl eq_refl)). f_equal. apply IHl. intros t Ht. apply IH. right. exact Ht.
  Qed.
  Lemma zlsum_perm : forall A (l l' : list A) (f : A -> Z), Permutation l l' -> zlsum l f = zlsum l' f.
  Proof. intros A l l' f H. exact (lsum_perm Zc A l l' f H). Qed.
  Lemma zlsum_map : forall A A' (g : A -> A') l (f : A' -> Z), zlsum (map g l) f = zlsum l (fun a => f (g a)).
  Proof. induction l as [|a l IH]; intros f; [reflexivity|]. cbn [map lsum]. rewrite IH. reflexivity. Qed.

  Variables (sy : symc) (B : bbuild) (gen : nat -> nat -> car K) (compress : ctree -> ctree -> lrm K).
  (** The statistics of a built matrix count no more than its leaves. *)
  Lemma reported_leaves : forall root L Y, (forall u, In u (preorder root) -> b_sym (rt_val u) = true -> sy <> SyN) ->
    hleaves K (hfill K sy B gen compress root) = Some (L, Y) ->
    zlsum (dense_leaves (hfill K sy B gen compress root)) stored2 + zlsum (low_leaves (hfill K sy B gen compress root)) stored2 <= zlsum L stored2.
  Proof.
    intros root L Y Hs HL. rewrite (hleaves_eq K sy B gen compress root Hs) in HL.
    destruct (get_leaves_from (length (preorder root)) root) as [[L0 Y0]|] eqn:E; [|discriminate]. cbn in HL. injection HL as <- <-.
    unfold get_leaves_from in E. apply leaves_run_ok in E. cbn [map concat fst snd app] in E. rewrite !app_nil_r in E. destruct E as [P _].
    rewrite (zlsum_perm _ _ _ stored2 (Permutation_map (hleaf K sy B gen compress) P)).
    rewrite <- leaves_filter. unfold dense_leaves, low_leaves. rewrite hfill_pre. clear.
    generalize (preorder root). intros l. induction l as [|[i cs] l IH]; [reflexivity|]. cbn [map filter rt_children].
    assert (EL : InfoModel.is_leaf K (hfill K sy B gen compress (RNode i cs)) = match cs with [] => true | _ => false end) by (destruct cs; reflexivity).
    rewrite EL. destruct cs as [|c cs]; cbn [andb].
    - cbn [map]. change (rt_val (hfill K sy B gen compress (RNode i []))) with (hleaf K sy B gen compress i). cbn [rt_val] in *.
      change (rt_val (RNode i [])) with i. set (h := hleaf K sy B gen compress i) in *. pose proof (stored2_nonneg h).
      unfold h_dense, h_low in *. destruct (h_data h); cbn [map lsum]; change (cadd Zc) with Z.add; change (rt_val (hfill K sy B gen compress (RNode i []))) with h; lia.
    - exact IH.
  Qed.
  Lemma reported_exactly : forall root L Y, (forall u, In u (preorder root) -> b_sym (rt_val u) = true -> sy <> SyN) ->
    (forall x, In x (rleaves root) -> b_task x <> None) -> hleaves K (hfill K sy B gen compress root) = Some (L, Y) ->
    zlsum (dense_leaves (hfill K sy B gen compress root)) stored2 + zlsum (low_leaves (hfill K sy B gen compress root)) stored2 = zlsum L stored2 /\ L <> [].
  Proof.
    intros root L Y Hs Ht HL. rewrite (hleaves_eq K sy B gen compress root Hs) in HL.
    destruct (get_leaves_from (length (preorder root)) root) as [[L0 Y0]|] eqn:E; [|discriminate]. cbn in HL. injection HL as <- <-.
    unfold get_leaves_from in E. apply leaves_run_ok in E. cbn [map concat fst snd app] in E. rewrite !app_nil_r in E. destruct E as [P _].
    rewrite (zlsum_perm _ _ _ stored2 (Permutation_map (hleaf K sy B gen compress) P)). split.
    - revert Ht. rewrite <- leaves_filter. unfold dense_leaves, low_leaves. rewrite hfill_pre. clear.
      generalize (preorder root). intros l. induction l as [|[i cs] l IH]; [reflexivity|]. cbn [map filter rt_children].
      assert (EL : InfoModel.is_leaf K (hfill K sy B gen compress (RNode i cs)) = match cs with [] => true | _ => false end) by (destruct cs; reflexivity).
      rewrite EL. destruct cs as [|c cs]; cbn [andb]; intros Ht.
      + cbn [map] in Ht |- *. change (rt_val (hfill K sy B gen compress (RNode i []))) with (hleaf K sy B gen compress i).
        specialize (IH (fun x Hx => Ht x (or_intror Hx))). specialize (Ht i (or_introl eq_refl)).
        change (rt_val (RNode i [])) with i. assert (D : h_data (hleaf K sy B gen compress i) <> DNone).
        { cbn [hleaf h_data]. unfold block_data. destruct (b_task i) as [[|]|]; [destruct (_ && _)| |congruence]; discriminate. }
        set (h := hleaf K sy B gen compress i) in *.
        unfold h_dense, h_low in *. destruct (h_data h); [congruence| |]; cbn [map lsum]; change (cadd Zc) with Z.add; change (rt_val (hfill K sy B gen compress (RNode i []))) with h; lia.
      + exact (IH Ht).
    - intros Q. apply map_eq_nil in Q. subst L0. apply Permutation_nil in P. clear - P. induction root as [i cs IH] using rtree_ind'. rewrite rleaves_eq in P.
      destruct cs as [|c cs]; [discriminate|]. cbn [app map concat] in P. apply app_eq_nil in P. apply (IH c (or_introl eq_refl)), P.
  Qed.
End Tiling.
