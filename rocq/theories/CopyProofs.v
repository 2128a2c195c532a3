(** * Proofs about the copies. *)

From Coq Require Import List Arith Bool Lia Ring.
From Verif Require Import ClusterModel ClusterSpec IOModel IOSpec IOProofs BlockModel BlockSpec Algebra BlasModel BlasProofs HMatModel HMatSpec
  HMatProofs DiagModel CopyModel CopySpec.
Import ListNotations.

Section C.
  Variable K : Coef.
  Notation C := (car K).
  Notation ci := (copy_info K).
  Notation cp := (hcopy K).

  Lemma rt_copy : forall A : hmat K, rt_val (cp A) = ci (rt_val A).
  Proof. intros [i cs]. reflexivity. Qed.
  Lemma ch_copy : forall A : hmat K, rt_children (cp A) = map cp (rt_children A).
  Proof. intros [i cs]. reflexivity. Qed.
  Lemma preorder_copy : forall A : hmat K, length (preorder (cp A)) = length (preorder A).
  Proof.
    fix IH 1. intros [i cs]. cbn [hcopy]. rewrite !preorder_eq. cbn [rt_children length]. f_equal. rewrite map_map.
    induction cs as [|c cs IHc]; [reflexivity|]. cbn [map concat]. rewrite !app_length, IHc. f_equal. apply IH.
  Qed.

  Lemma hleaves_run_copy : forall f st L Y,
    hleaves_run K f (map (fun p : hmat K * bool => (cp (fst p), snd p)) st) (map ci L) (map ci Y)
    = match hleaves_run K f st L Y with Some (L', Y') => Some (map ci L', map ci Y') | None => None end.
  Proof.
    induction f as [|f IH]; intros [|[b anc] st] L Y; cbn [hleaves_run map fst snd]; try reflexivity.
    rewrite rt_copy, ch_copy.
    assert (El : (match map cp (rt_children b) with [] => true | _ => false end) = (match rt_children b with [] => true | _ => false end)) by (destruct (rt_children b); reflexivity).
    rewrite El. cbn [copy_info h_sym h_t h_s].
    match goal with |- hleaves_run K f ?s ?l ?y = _ => replace s with (map (fun p : hmat K * bool => (cp (fst p), snd p))
      (rev (map (fun c => (c, negb (sym_is_N (h_sym (rt_val b))) || anc)) (rt_children b)) ++ st)) end.
    - rewrite <- IH. f_equal.
      + destruct (match rt_children b with [] => true | _ => false end); [rewrite map_app|]; reflexivity.
      + destruct (_ && _ && _); [rewrite map_app|]; reflexivity.
    - rewrite map_app, map_rev, !map_map. reflexivity.
  Qed.
  Lemma hleaves_copy : forall A : hmat K, hleaves K (cp A) = match hleaves K A with Some (L, Y) => Some (map ci L, map ci Y) | None => None end.
  Proof.
    intros A. unfold hleaves. rewrite preorder_copy, rt_copy. exact (hleaves_run_copy (length (preorder A)) [(A, negb (sym_is_N (h_sym (rt_val A))))] [] []).
  Qed.

  (** The loops only read the clusters, the symmetry and the data of the leaves. *)
  Lemma leaves_loop_copy : forall t lin lout mu run L x y, (forall t' h, run t' (ci h) = run t' h) ->
    leaves_loop K t lin lout mu run (map ci L) x y = leaves_loop K t lin lout mu run L x y.
  Proof.
    intros t lin lout mu run L x y Hr. revert y. induction L as [|h L IH]; intros y; [reflexivity|]. cbn [map leaves_loop].
    rewrite Hr. change (in_cl K t (ci h)) with (in_cl K t h). change (out_cl K t (ci h)) with (out_cl K t h).
    destruct (if lin <=? c_off (in_cl K t h) then _ else _); [|reflexivity]. destruct (write_at _ _ _ _ _); [apply IH|reflexivity].
  Qed.
  Lemma sym_loop_copy : forall t ts lin lout mu run L x y, (forall t' h, run t' (ci h) = run t' h) ->
    sym_loop K t ts lin lout mu run (map ci L) x y = sym_loop K t ts lin lout mu run L x y.
  Proof.
    intros t ts lin lout mu run L x y Hr. revert y. induction L as [|h L IH]; intros y; [reflexivity|]. cbn [map sym_loop].
    rewrite Hr. change (in_cl K t (ci h)) with (in_cl K t h). change (out_cl K t (ci h)) with (out_cl K t h).
    destruct (if lin <=? c_off (out_cl K t h) then _ else _); [|reflexivity]. destruct (write_at _ _ _ _ _); [apply IH|reflexivity].
  Qed.
  Lemma sym_loop_trans : forall t ts ts' lin lout mu run L x y, (forall h x' y', In h L -> run ts h x' y' = run ts' h x' y') ->
    sym_loop K t ts lin lout mu run L x y = sym_loop K t ts' lin lout mu run L x y.
  Proof.
    intros t ts ts' lin lout mu run L x y Hr. revert y. induction L as [|h L IH]; intros y; [reflexivity|]. cbn [sym_loop].
    destruct (if lin <=? c_off (out_cl K t h) then _ else _) as [xp|]; [|reflexivity]. unfold write_at. destruct (_ && _); [|reflexivity].
    rewrite (Hr h) by (left; reflexivity). destruct (run ts' h xp _); [|reflexivity]. apply IH. intros h' x' y' Hh. apply Hr. right. exact Hh.
  Qed.

  (** Without conjugation, 'C' is 'T'. *)
  Section Real.
    Hypothesis Hid : forall x : C, cconj K x = x.
    Lemma op_entry_CT : forall A ld i j, op_entry K TrC A ld i j = op_entry K TrT A ld i j.
    Proof. intros. cbn. apply Hid. Qed.
    Lemma gemv_CT : forall m n alpha A lda x beta y, gemv K TrC m n alpha A lda x beta y = gemv K TrT m n alpha A lda x beta y.
    Proof.
      intros. unfold gemv. cbn [rows_of is_N]. destruct (negb _); [reflexivity|]. destruct (_ || _); [reflexivity|]. destruct (_ && _); [|reflexivity].
      f_equal. f_equal. unfold mk. apply map_ext. intros i. f_equal. f_equal. apply sum_ext. intros j _. rewrite op_entry_CT. reflexivity.
    Qed.
    Lemma leaf_vec_CT : forall alpha h x beta y, leaf_vec K TrC alpha h x beta y = leaf_vec K TrT alpha h x beta y.
    Proof.
      intros alpha h x beta y. unfold leaf_vec. destruct (h_data h) as [|A|L]; [reflexivity| |].
      - destruct (h_sym h); try reflexivity. apply gemv_CT.
      - unfold add_lrmat_vector_product, add_matrix_vector_product. destruct (lrank L =? 0); [reflexivity|]. rewrite gemv_CT.
        destruct (gemv K TrT _ _ _ _ _ _ _ _); [apply gemv_CT|reflexivity].
    Qed.
    Lemma conj_buf_id : forall n l, n <= length l -> conj_buf K n l = Some l.
    Proof.
      intros n l H. unfold conj_buf, transform. replace (n <=? length l) with true by (symmetry; apply Nat.leb_le; exact H). f_equal.
      apply (list_ext K).
      - unfold mk. rewrite app_length, map_length, seq_length, skipn_length. lia.
      - intros i _. rewrite get_app. unfold mk at 1. rewrite map_length, seq_length. destruct (Nat.ltb_spec i n) as [Hi|Hi].
        + rewrite get_mk. destruct (Nat.ltb_spec i n); [apply Hid|lia].
        + rewrite get_skipn. unfold mk. rewrite map_length, seq_length. replace (n + (i - n)) with i by lia. reflexivity.
    Qed.
    Lemma mm_CT : forall tb alpha A x beta y mu, mr A * mc A <= length (md A) ->
      add_matrix_matrix_product_row_major K TrC tb alpha A x beta y mu = add_matrix_matrix_product_row_major K TrT tb alpha A x beta y mu.
    Proof. intros tb alpha A x beta y mu H. unfold add_matrix_matrix_product_row_major. cbn [is_N]. rewrite conj_buf_id by exact H. reflexivity. Qed.
    Lemma leaf_mat_CT : forall tb alpha h x beta y mu, wf_leaf h -> leaf_mat K TrC tb alpha h x beta y mu = leaf_mat K TrT tb alpha h x beta y mu.
    Proof.
      intros tb alpha h x beta y mu W. unfold leaf_mat. unfold wf_leaf in W. destruct (h_data h) as [|A|L]; [reflexivity| |].
      - destruct (h_sym h); try reflexivity. apply mm_CT. destruct W as (_ & _ & (W1 & W2 & W3) & _). rewrite W1, W2, W3. lia.
      - unfold add_lrmat_matrix_product_row_major. destruct (lrank L =? 0); [reflexivity|]. destruct W as (_ & _ & (U1 & U2 & U3) & (V1 & V2 & V3)).
        rewrite mm_CT by (rewrite U1, U2, U3; lia). destruct (add_matrix_matrix_product_row_major K TrT tb _ _ _ _ _ _); [|reflexivity].
        apply mm_CT. rewrite V1, V2, V3. lia.
    Qed.
  End Real.

  (** When the copy behaves as the original. *)
  Definition faithful (lsym : symc) (Y : list (hinfo K)) : Prop :=
    Y = [] \/ lsym = SyH \/ lsym = SyS /\ (forall x : C, cconj K x = x) /\ forall h, In h Y -> wf_leaf h.

  Lemma sym_part : forall t lsym lin lout mu run Y x y, faithful lsym Y -> (forall t' h, run t' (ci h) = run t' h) ->
    ((forall x : C, cconj K x = x) -> forall h x' y', wf_leaf h -> run TrC h x' y' = run TrT h x' y') ->
    sym_loop K t (trans_sym t Sy0) lin lout mu run (map ci Y) x y =
    if sym_is_N lsym then Some y else sym_loop K t (trans_sym t lsym) lin lout mu run Y x y.
  Proof.
    intros t lsym lin lout mu run Y x y HF Hr Hct. rewrite sym_loop_copy by exact Hr. destruct HF as [->|[->|(-> & Hid & Hw)]].
    - cbn [sym_loop]. destruct (sym_is_N lsym); reflexivity.
    - reflexivity.
    - cbn [sym_is_N]. apply sym_loop_trans. intros h x' y' Hh. unfold trans_sym. cbn [sym_is_S]. destruct (is_N t); [|reflexivity]. apply Hct; auto.
  Qed.

  Lemma leaf_vec_ci : forall t alpha h x beta y, leaf_vec K t alpha (ci h) x beta y = leaf_vec K t alpha h x beta y.
  Proof. reflexivity. Qed.

  Lemma critical_copy : forall t alpha r mu run ths x y, (forall th, In th ths -> faithful (h_lsym r) (snd th)) -> (forall t' h, run t' (ci h) = run t' h) ->
    ((forall x : C, cconj K x = x) -> forall h x' y', wf_leaf h -> run TrC h x' y' = run TrT h x' y') ->
    critical_vec K t alpha (ci r) mu run (map (fun th => (map ci (fst th), map ci (snd th))) ths) x y = critical_vec K t alpha r mu run ths x y.
  Proof.
    intros t alpha r mu run ths x y HF Hr Hct. revert y. induction ths as [|th ths IH]; intros y; [reflexivity|]. cbn [map critical_vec].
    assert (E : thread_vec K t (ci r) mu run (map ci (fst th), map ci (snd th)) x = thread_vec K t r mu run th x).
    { unfold thread_vec. cbn [fst snd]. change (in_cl K t (ci r)) with (in_cl K t r). change (out_cl K t (ci r)) with (out_cl K t r).
      rewrite leaves_loop_copy by exact Hr. destruct (leaves_loop K t _ _ mu run (fst th) x _) as [y2|]; [|reflexivity].
      cbn [copy_info h_lsym sym_is_N]. apply sym_part; [apply HF; left; reflexivity|exact Hr|exact Hct]. }
    rewrite E. destruct (thread_vec K t r mu run th x) as [tmp|]; [|reflexivity]. change (out_cl K t (ci r)) with (out_cl K t r).
    destruct (axpy _ _ _ _ _); [|reflexivity]. apply IH. intros th' H'. apply HF. right. exact H'.
  Qed.

  Lemma omp_vec_copy : forall ths t alpha A x beta y, (forall th, In th ths -> faithful (h_lsym (rt_val A)) (snd th)) ->
    omp_vec K (map (fun th => (map ci (fst th), map ci (snd th))) ths) t alpha (cp A) x beta y = omp_vec K ths t alpha A x beta y.
  Proof.
    intros ths t alpha A x beta y HF. unfold omp_vec. rewrite rt_copy. change (out_cl K t (ci (rt_val A))) with (out_cl K t (rt_val A)).
    destruct (scale_out _ _ _ _); [|reflexivity]. apply critical_copy; [exact HF|reflexivity|]. intros Hid h x' y' _. apply leaf_vec_CT, Hid.
  Qed.
  Lemma omp_mat_copy : forall ths t alpha A x beta y mu, (forall th, In th ths -> faithful (h_lsym (rt_val A)) (snd th)) ->
    omp_mat K (map (fun th => (map ci (fst th), map ci (snd th))) ths) t alpha (cp A) x beta y mu = omp_mat K ths t alpha A x beta y mu.
  Proof.
    intros ths t alpha A x beta y mu HF. unfold omp_mat. rewrite rt_copy. change (out_cl K t (ci (rt_val A))) with (out_cl K t (rt_val A)).
    destruct (scale_out _ _ _ _); [|reflexivity]. apply critical_copy; [exact HF|reflexivity|]. intros Hid h x' y' W. apply leaf_mat_CT; assumption.
  Qed.

  Lemma fold_opt_map : forall {X Z : Type} (g : X -> Z) (f : Z -> list C -> option (list C)) l b, fold_opt K f (map g l) b = fold_opt K (fun x => f (g x)) l b.
  Proof. intros X Z g f l. induction l as [|a l IH]; intros b; [reflexivity|]. cbn [map fold_opt]. destruct (f (g a) b); [apply IH|reflexivity]. Qed.
  Lemma fold_opt_same : forall {X : Type} (f f' : X -> list C -> option (list C)) l b, (forall x b', In x l -> f x b' = f' x b') -> fold_opt K f l b = fold_opt K f' l b.
  Proof.
    intros X f f' l. induction l as [|a l IH]; intros b H; [reflexivity|]. cbn [fold_opt]. rewrite (H a b) by (left; reflexivity).
    destruct (f' a b); [|reflexivity]. apply IH. intros x b' Hx. apply H. right. exact Hx.
  Qed.

  Theorem copy_same : forall A L Y, hleaves K A = Some (L, Y) -> faithful (h_lsym (rt_val A)) Y -> same_results K A (cp A).
  Proof.
    intros A L Y HL HF. assert (HC := hleaves_copy A). rewrite HL in HC. constructor.
    - intros t alpha x beta y. unfold add_hmatrix_vector_product. rewrite rt_copy. cbn [copy_info h_data].
      destruct (h_data (rt_val A)) eqn:ED; [|reflexivity|reflexivity]. unfold seq_vec. rewrite rt_copy, HC, HL.
      change (out_cl K t (ci (rt_val A))) with (out_cl K t (rt_val A)). change (in_cl K t (ci (rt_val A))) with (in_cl K t (rt_val A)).
      destruct (scale_out _ _ _ _) as [y1|]; [|reflexivity].
      rewrite leaves_loop_copy by reflexivity. destruct (leaves_loop K t _ _ 1 _ L x y1) as [y2|]; [|reflexivity]. symmetry. cbn [copy_info h_lsym sym_is_N].
      apply (sym_part t (h_lsym (rt_val A)) _ _ 1 (fun t' h x' y' => leaf_vec K t' alpha h x' (c1 K) y')); [exact HF|reflexivity|].
      intros Hid h x' y' _. apply leaf_vec_CT, Hid.
    - intros t alpha x beta y mu. unfold add_hmatrix_matrix_product_row_major. rewrite rt_copy. cbn [copy_info h_data].
      destruct (h_data (rt_val A)) eqn:ED; [|reflexivity|reflexivity]. unfold seq_mat. rewrite HC, HL. symmetry.
      apply (omp_mat_copy [(L, Y)]). intros th [<-|[]]. exact HF.
    - intros b. unfold copy_to_dense. rewrite rt_copy, HC, HL. unfold dense_loop. rewrite fold_opt_map. reflexivity.
    - intros tp sp b. unfold copy_to_dense_in_user_numbering. rewrite rt_copy, HC, HL. unfold dense_loop. rewrite fold_opt_map.
      change (h_t (ci (rt_val A))) with (h_t (rt_val A)). change (h_s (ci (rt_val A))) with (h_s (rt_val A)).
      match goal with |- match ?e with _ => _ end = match ?e' with _ => _ end => change e' with e; destruct e as [b1|]; [|reflexivity] end.
      rewrite fold_opt_map. cbn [copy_info h_lsym sym_is_N sym_is_S]. destruct HF as [->|[->|(-> & Hid & _)]].
      + cbn [fold_opt]. destruct (sym_is_N _); reflexivity.
      + reflexivity.
      + cbn [sym_is_N sym_is_S]. apply fold_opt_same. intros h b' _. apply fold_opt_same. intros jk b2 _. rewrite Hid. reflexivity.
    - intros b. unfold copy_diagonal. rewrite rt_copy, HC, HL, fold_opt_map. reflexivity.
    - intros tp b. unfold copy_diagonal_in_user_numbering. rewrite rt_copy, HC, HL, fold_opt_map. reflexivity.
  Qed.
End C.

(** ** The assignment *)
Section A.
  Variable K : Coef.
  Notation C := (car K).
  Notation ci := (copy_info K).
  Notation cp := (hcopy K).

  Lemma loops_eq : forall t lin lout mu run L L' x y, (forall t' h, run t' (ci h) = run t' h) -> map ci L = map ci L' ->
    leaves_loop K t lin lout mu run L x y = leaves_loop K t lin lout mu run L' x y.
  Proof. intros. rewrite <- (leaves_loop_copy K t lin lout mu run L), <- (leaves_loop_copy K t lin lout mu run L') by assumption. congruence. Qed.
  Lemma sloops_eq : forall t ts lin lout mu run L L' x y, (forall t' h, run t' (ci h) = run t' h) -> map ci L = map ci L' ->
    sym_loop K t ts lin lout mu run L x y = sym_loop K t ts lin lout mu run L' x y.
  Proof. intros. rewrite <- (sym_loop_copy K t ts lin lout mu run L), <- (sym_loop_copy K t ts lin lout mu run L') by assumption. congruence. Qed.
  Lemma fold_eq : forall (f : hinfo K -> list C -> option (list C)) L L' b, (forall h, f (ci h) = f h) -> map ci L = map ci L' -> fold_opt K f L b = fold_opt K f L' b.
  Proof.
    intros f L L' b Hf E.
    assert (G : forall l b0, fold_opt K f (map ci l) b0 = fold_opt K f l b0).
    { intros l b0. rewrite fold_opt_map. apply fold_opt_same. intros h b' _. rewrite Hf. reflexivity. }
    rewrite <- (G L), <- (G L'), E. reflexivity.
  Qed.

  (** Two matrices with the same fields and leaves up to the symmetry recorded for the leaves below the root. *)
  Lemma gen_same : forall A B L Y L' Y', rt_val A = rt_val B -> hleaves K A = Some (L, Y) -> hleaves K B = Some (L', Y') ->
    map ci L = map ci L' -> map ci Y = map ci Y' -> same_results K A B.
  Proof.
    intros A B L Y L' Y' Er HA HB EL EY. constructor.
    - intros t alpha x beta y. unfold add_hmatrix_vector_product, seq_vec. rewrite HA, HB, Er. destruct (h_data (rt_val B)); [|reflexivity|reflexivity].
      destruct (scale_out _ _ _ _) as [y1|]; [|reflexivity].
      rewrite (loops_eq t _ _ 1 (fun t' h x' y' => leaf_vec K t' alpha h x' (c1 K) y') L L' x y1) by (reflexivity || exact EL).
      destruct (leaves_loop K t _ _ 1 _ L' x y1) as [y2|]; [|reflexivity]. destruct (sym_is_N _); [reflexivity|]. apply sloops_eq; [reflexivity|exact EY].
    - intros t alpha x beta y mu. unfold add_hmatrix_matrix_product_row_major, seq_mat, omp_mat. rewrite HA, HB, Er. destruct (h_data (rt_val B)); [|reflexivity|reflexivity].
      destruct (scale_out _ _ _ _) as [y1|]; [|reflexivity]. cbn [critical_vec].
      match goal with |- match ?e with _ => _ end = match ?e' with _ => _ end => assert (Et : e = e'); [|rewrite Et; reflexivity] end.
      unfold thread_vec. cbn [fst snd].
      rewrite (loops_eq t _ _ mu (fun t' h x' y' => leaf_mat K t' TrN (c1 K) h x' (c1 K) y' mu) L L' x) by (reflexivity || exact EL).
      destruct (leaves_loop K t _ _ mu _ L' x _) as [y2|]; [|reflexivity]. destruct (sym_is_N _); [reflexivity|]. apply sloops_eq; [reflexivity|exact EY].
    - intros b. unfold copy_to_dense. rewrite HA, HB, Er. apply fold_eq; [reflexivity|exact EL].
    - intros tp sp b. unfold copy_to_dense_in_user_numbering. rewrite HA, HB, Er. unfold dense_loop.
      match goal with |- match ?e with _ => _ end = match ?e' with _ => _ end => assert (Et : e = e'); [|rewrite Et; destruct e' as [b1|]; [|reflexivity]] end.
      { apply fold_eq; [reflexivity|exact EL]. }
      destruct (sym_is_N _); [reflexivity|]. apply fold_eq; [reflexivity|exact EY].
    - intros b. unfold copy_diagonal. rewrite HA, HB, Er. apply fold_eq; [reflexivity|exact EL].
    - intros tp b. unfold copy_diagonal_in_user_numbering. rewrite HA, HB, Er. apply fold_eq; [reflexivity|exact EL].
  Qed.

  Lemma copy_copy : forall A : hmat K, cp (cp A) = cp A.
  Proof.
    fix IH 1. intros [i cs]. cbn [hcopy]. f_equal. rewrite map_map. induction cs as [|c cs IHc]; [reflexivity|]. cbn [map]. rewrite IHc. f_equal. apply IH.
  Qed.
  Lemma copy_assign : forall D A, cp (hassign K false D A) = cp A.
  Proof. intros D [i cs]. cbn [hassign hcopy]. f_equal. rewrite map_map. apply map_ext. apply copy_copy. Qed.

  Theorem assign_same : forall D A L Y, hleaves K A = Some (L, Y) -> same_results K A (hassign K false D A).
  Proof.
    intros D A L Y HL. assert (E := hleaves_copy K (hassign K false D A)). rewrite copy_assign, hleaves_copy, HL in E.
    destruct (hleaves K (hassign K false D A)) as [[L' Y']|] eqn:E2; [|discriminate]. injection E as EL EY.
    apply (gen_same A _ L Y L' Y'); try assumption. destruct A; reflexivity.
  Qed.
End A.

(** ** The parameters *)
Section TD.
  Variable P : Type.
  Notation td_copy := (td_copy P).

  Lemma values_ext : forall (A : rtree nat) (h h' : list P), (forall p, In p (ids A) -> nth_error h' p = nth_error h p) -> values A h' = values A h.
  Proof.
    intros A. induction A as [p cs IH] using rtree_ind'. intros h h' H. cbn [values]. f_equal; [apply H; left; reflexivity|].
    apply map_ext_in. intros c Hc. apply IH; [exact Hc|]. intros q Hq. apply H. cbn [ids]. right. apply in_concat. exists (ids c). split; [apply in_map, Hc|exact Hq].
  Qed.

  Lemma NoDup_app_disj : forall l1 l2 : list nat, NoDup l1 -> NoDup l2 -> (forall q, In q l1 -> ~ In q l2) -> NoDup (l1 ++ l2).
  Proof.
    induction l1 as [|a l1 IH]; intros l2 H1 H2 H; [exact H2|]. inversion H1; subst. cbn. constructor.
    - intros Q. apply in_app_or in Q. destruct Q as [Q|Q]; [contradiction|]. exact (H a (or_introl eq_refl) Q).
    - apply IH; [assumption|exact H2|]. intros q Hq. apply H. right. exact Hq.
  Qed.

  Definition copied (A : rtree nat) (heap : list P) (A' : rtree nat) (heap' : list P) : Prop :=
    (exists ext, heap' = heap ++ ext) /\ values A' heap' = values A heap /\ (forall p, In p (ids A') -> length heap <= p < length heap') /\ NoDup (ids A').

  Lemma nth_ext : forall (h e : list P) p, p < length h -> nth_error (h ++ e) p = nth_error h p.
  Proof. intros. apply nth_error_app1. assumption. Qed.

  Theorem td_copy_ok : forall A heap, (forall p, In p (ids A) -> p < length heap) -> exists A' heap', td_copy A heap = Some (A', heap') /\ copied A heap A' heap'.
  Proof.
    intros A. induction A as [p cs IH] using rtree_ind'. intros heap Hin. cbn [CopyModel.td_copy].
    assert (Hp : p < length heap) by (apply Hin; left; reflexivity).
    destruct (nth_error heap p) as [d|] eqn:Ed; [|apply nth_error_None in Ed; lia].
    set (go := fix go (cs : list (rtree nat)) (h : list P) : option (list (rtree nat) * list P) :=
                       match cs with
                       | [] => Some ([], h)
                       | c :: cs' => match td_copy c h with
                                     | None => None
                                     | Some (c', h1) => match go cs' h1 with Some (r, h2) => Some (c' :: r, h2) | None => None end
                                     end
                       end).
    assert (G : forall l h, incl l cs -> (exists e, h = heap ++ e) -> exists l' h', go l h = Some (l', h') /\ (exists e, h' = h ++ e) /\
      map (fun c => values c h') l' = map (fun c => values c heap) l /\ (forall q, In q (concat (map ids l')) -> length h <= q < length h') /\ NoDup (concat (map ids l'))).
    { induction l as [|c l IHl]; intros h Hl [e He].
      - exists [], h. split; [reflexivity|]. split; [exists []; rewrite app_nil_r; reflexivity|]. split; [reflexivity|]. split; [intros q []|constructor].
      - assert (Hc : In c cs) by (apply Hl; left; reflexivity).
        assert (Hci : forall q, In q (ids c) -> q < length heap).
        { intros q Hq. apply Hin. cbn [ids]. right. apply in_concat. exists (ids c). split; [apply in_map, Hc|exact Hq]. }
        destruct (IH c Hc h) as (c' & h1 & E1 & (e1 & X1) & X2 & X3 & X4); [intros q Hq; specialize (Hci q Hq); rewrite He, app_length; lia|].
        destruct (IHl h1) as (l' & h' & E2 & (e2 & Y1) & Y2 & Y3 & Y4); [intros x Hx; apply Hl; right; exact Hx|exists (e ++ e1); rewrite X1, He, app_assoc; reflexivity|].
        exists (c' :: l'), h'. cbn [go]. fold go. rewrite E1, E2. split; [reflexivity|]. split; [exists (e1 ++ e2); rewrite Y1, X1, app_assoc; reflexivity|].
        assert (L1 : length h <= length h1) by (rewrite X1, app_length; lia). assert (L2 : length h1 <= length h') by (rewrite Y1, app_length; lia).
        split; [|split].
        + cbn [map]. f_equal; [|exact Y2]. transitivity (values c' h1).
          * apply values_ext. intros q Hq. rewrite Y1. apply nth_ext. apply X3, Hq.
          * rewrite X2. apply values_ext. intros q Hq. rewrite He. apply nth_ext, Hci, Hq.
        + cbn [map concat]. intros q Hq. apply in_app_or in Hq. destruct Hq as [Hq|Hq]; [specialize (X3 q Hq)|specialize (Y3 q Hq)]; lia.
        + cbn [map concat]. apply NoDup_app_disj; [exact X4|exact Y4|]. intros q Hq Hq'. specialize (X3 q Hq). specialize (Y3 q Hq'). lia. }
    destruct (G cs (heap ++ [d]) (incl_refl _)) as (l' & h' & E & (e & H1) & H2 & H3 & H4); [exists [d]; reflexivity|].
    rewrite E. exists (RNode (length heap) l'), h'. split; [reflexivity|]. assert (Lh : length h' = length heap + 1 + length e) by (rewrite H1, !app_length; reflexivity).
    split; [exists (d :: e); rewrite H1, <- app_assoc; reflexivity|]. split; [|split].
    - cbn [values]. f_equal; [|exact H2]. rewrite Ed, H1, <- app_assoc. rewrite nth_error_app2 by lia. rewrite Nat.sub_diag. reflexivity.
    - cbn [ids]. intros q [<-|Hq]; [lia|]. specialize (H3 q Hq). rewrite app_length in H3. cbn [length] in H3. lia.
    - cbn [ids]. constructor; [|exact H4]. intros Q. specialize (H3 _ Q). rewrite app_length in H3. cbn [length] in H3. lia.
  Qed.

  Lemma td_set_other : forall p f (h : list P) q, q <> p -> nth_error (td_set P p f h) q = nth_error h q.
  Proof.
    intros p f h q Hq. unfold td_set. destruct (nth_error h p) as [d|] eqn:E; [|reflexivity].
    assert (Hp : p < length h) by (apply nth_error_Some; congruence).
    destruct (Nat.lt_ge_cases q p) as [L|L].
    - rewrite nth_error_app1 by (rewrite firstn_length; lia). rewrite <- (firstn_skipn p h) at 2. rewrite nth_error_app1 by (rewrite firstn_length; lia). reflexivity.
    - rewrite nth_error_app2 by (rewrite firstn_length; lia). rewrite firstn_length, Nat.min_l by lia. destruct (q - p) as [|k] eqn:Ek; [lia|]. cbn [nth_error].
      rewrite <- (firstn_skipn (S p) h) at 2. rewrite nth_error_app2 by (rewrite firstn_length; lia). rewrite firstn_length, Nat.min_l by lia. f_equal. lia.
  Qed.
  Lemma td_set_same : forall p f (h : list P) d, nth_error h p = Some d -> nth_error (td_set P p f h) p = Some (f d).
  Proof.
    intros p f h d E. unfold td_set. rewrite E. assert (Hp : p < length h) by (apply nth_error_Some; congruence).
    rewrite nth_error_app2 by (rewrite firstn_length; lia). rewrite firstn_length, Nat.min_l by lia. rewrite Nat.sub_diag. reflexivity.
  Qed.
  Lemma share_ids : forall {X} p (s : rtree X) q, In q (ids (share p s)) -> q = p.
  Proof.
    intros X p s. induction s as [x cs IH] using rtree_ind'. intros q H. cbn [share ids] in H. destruct H as [<-|H]; [reflexivity|].
    apply in_concat in H. destruct H as (l & Hl & Hq). rewrite map_map in Hl. apply in_map_iff in Hl. destruct Hl as (c & <- & Hc). exact (IH c Hc q Hq).
  Qed.
End TD.
