(** * Truncated sums and products. *)

From Coq Require Import List Arith ZArith Bool Lia Ring Reals Lra Permutation.
From Verif Require Import ClusterModel ClusterSpec ClusterProofs IOModel IOSpec BlockModel BlockSpec BlockProofs BlockSym Algebra BlasModel BlasProofs
  HMatModel HMatSpec HMatBuild DistModel ArithModel ArithSpec ArithDense ArithLr ArithTree ArithHier ArithProd ArithDest P_Arith
  RealNum CompReal CompSpec AccSpec AccProofs GeomProofs P_Recomp TruncSpec.
Import ListNotations.
Local Open Scope R_scope.

(** Minkowski. *)
Lemma mink : forall n (a b : nat -> R), (forall i, (i < n)%nat -> 0 <= a i) -> (forall i, (i < n)%nat -> 0 <= b i) ->
  sqrt (rsum n (fun i => (a i + b i) * (a i + b i))) <= sqrt (rsum n (fun i => a i * a i)) + sqrt (rsum n (fun i => b i * b i)).
Proof.
  intros n a b Ha Hb. pose proof (cauchy_schwarz n a b) as CS. rewrite !rs_rsum in CS.
  set (A := rsum n (fun i => a i * a i)) in *. set (B := rsum n (fun i => b i * b i)) in *. set (X := rsum n (fun i => a i * b i)) in *.
  assert (HA : 0 <= A) by (apply rsum_nonneg; intros; nra). assert (HB : 0 <= B) by (apply rsum_nonneg; intros; nra).
  assert (E : rsum n (fun i => (a i + b i) * (a i + b i)) = A + 2 * X + B).
  { unfold A, B, X. rewrite <- rsum_scal, <- !rsum_plus. apply rsum_ext. intros. ring. }
  rewrite E. pose proof (sqrt_pos A). pose proof (sqrt_pos B). pose proof (sqrt_sqrt A HA). pose proof (sqrt_sqrt B HB).
  assert (XB : X <= sqrt A * sqrt B).
  { rewrite <- sqrt_mult by assumption. destruct (Rle_lt_dec X 0) as [Q|Q]; [pose proof (sqrt_pos (A * B)); lra|].
    rewrite <- (sqrt_square X) by lra. apply sqrt_le_1; [nra|nra|exact CS]. }
  assert (0 <= X) by (apply rsum_nonneg; intros; apply Rmult_le_pos; auto).
  rewrite <- (sqrt_square (sqrt A + sqrt B)) by lra. apply sqrt_le_1; nra.
Qed.

Section P.
  Variable K : Coef.
  Variable md : car K -> R.
  Hypothesis MD : modulus K md.
  Notation C := (car K).
  Add Ring KrTr : (c_ring K).

  Lemma fnorm_triangle : forall M N (f g h : nat -> nat -> C), (forall i j, (i < M)%nat -> (j < N)%nat -> h i j = cadd K (f i j) (g i j)) ->
    fnorm md M N h <= fnorm md M N f + fnorm md M N g.
  Proof.
    intros M N f g h E.
    assert (RN : forall (u : nat -> nat -> C), fnorm md M N u = sqrt (rsum M (fun i => sqrt (rsum N (fun j => md (u i j) * md (u i j))) * sqrt (rsum N (fun j => md (u i j) * md (u i j)))))).
    { intros u. unfold fnorm. f_equal. apply rsum_ext. intros i Hi. rewrite sqrt_sqrt; [reflexivity|]. apply rsum_nonneg. intros. apply (m2_nonneg K md MD). }
    rewrite !RN. eapply Rle_trans; [|apply mink; intros; apply sqrt_pos]. apply sqrt_le_1.
    - apply rsum_nonneg. intros. apply Rmult_le_pos; apply sqrt_pos.
    - apply rsum_nonneg. intros i Hi. pose proof (sqrt_pos (rsum N (fun j => md (f i j) * md (f i j)))). pose proof (sqrt_pos (rsum N (fun j => md (g i j) * md (g i j)))). nra.
    - apply rsum_le. intros i Hi.
      assert (Q : sqrt (rsum N (fun j => md (h i j) * md (h i j))) <= sqrt (rsum N (fun j => md (f i j) * md (f i j))) + sqrt (rsum N (fun j => md (g i j) * md (g i j)))).
      { eapply Rle_trans; [|apply mink; intros; apply (md_pos _ _ MD)]. apply sqrt_le_1.
        - apply rsum_nonneg. intros. apply (m2_nonneg K md MD).
        - apply rsum_nonneg. intros j Hj. pose proof (md_pos _ _ MD (f i j)). pose proof (md_pos _ _ MD (g i j)). nra.
        - apply rsum_le. intros j Hj. rewrite (E i j Hi Hj). pose proof (md_pos _ _ MD (cadd K (f i j) (g i j))). pose proof (md_add _ _ MD (f i j) (g i j)). nra. }
      pose proof (sqrt_pos (rsum N (fun j => md (h i j) * md (h i j)))). nra.
  Qed.
  Lemma fnorm_zero : forall M N (f : nat -> nat -> C), (forall i j, (i < M)%nat -> (j < N)%nat -> f i j = c0 K) -> fnorm md M N f = 0.
  Proof.
    intros M N f E. unfold fnorm. rewrite (rsum_ext M _ (fun _ => 0)).
    - rewrite rsum_0. apply sqrt_0.
    - intros i Hi. rewrite <- (rsum_0 N). apply rsum_ext. intros j Hj. rewrite E by assumption. rewrite (md_0 _ _ MD). ring.
  Qed.
  Lemma close_ext : forall e r c f g L, (forall i j, (i < r)%nat -> (j < c)%nat -> f i j = g i j) -> close md e r c f L -> close md e r c g L.
  Proof.
    intros e r c f g L E (H1 & H2 & H3). split; [exact H1|]. split; [exact H2|]. erewrite (fnorm_ext K md r c); [exact H3|].
    intros i j Hi Hj. unfold error_of. rewrite E by assumption. reflexivity.
  Qed.
  Lemma fnorm_eq : forall r c (f g : nat -> nat -> C), (forall i j, (i < r)%nat -> (j < c)%nat -> f i j = g i j) -> fnorm md r c f = fnorm md r c g.
  Proof. intros r c f g H. apply (fnorm_ext K md). intros i j Hi Hj. rewrite H by assumption. reflexivity. Qed.

  Variable eps : R.
  Hypothesis He : 0 <= eps.
  Variable rc : lrm K -> lrm K.
  Hypothesis HT : truncates md eps rc.

  (** The exact result [L0], truncated or not. *)
  Lemma truncated_or_not : forall (b : bool) L0 r c f, (1 <= r)%nat -> (1 <= c)%nat -> lr_op TrN L0 r c f ->
    close md (eps * fnorm md r c f) r c f (if b then rc L0 else L0).
  Proof.
    intros b L0 r c f Hr Hc (W & R & V). cbn [is_N op_fun] in W, V. destruct b.
    - destruct (HT L0 r c Hr Hc W R) as [Q _]. rewrite <- (fnorm_eq r c (lr_entry L0) f V). exact (close_ext _ _ _ _ _ _ V Q).
    - split; [exact W|]. split; [exact R|]. rewrite fnorm_zero; [apply Rmult_le_pos; [exact He|apply sqrt_pos]|].
      intros i j Hi Hj. unfold error_of. rewrite V by assumption. ring.
  Qed.

  Notation id := (fun L : lrm K => L).
  (** With another truncation, the same result up to one truncation at the end. *)
  Definition same_shape (out0 out : option (lrm K)) : Prop := forall L0, out0 = Some L0 -> exists b : bool, out = Some (if b then rc L0 else L0).
  Ltac shape := intros L0 E; repeat (match type of E with
    | match ?x with Some _ => _ | None => None end = _ => destruct x; [|discriminate E]
    | (if ?x then _ else _) = _ => destruct x
    end; cbv beta zeta iota in * ); (exists true; congruence) || (exists false; congruence).
  Lemma shape_times : forall prod rows tb alpha B beta L, same_shape (times_lr_lr K id prod rows tb alpha B beta L) (times_lr_lr K rc prod rows tb alpha B beta L).
  Proof. intros. unfold times_lr_lr. shape. Qed.
  Lemma shape_ltimes : forall prod cols again ta alpha A beta L, same_shape (lr_times_lr K id prod cols again ta alpha A beta L) (lr_times_lr K rc prod cols again ta alpha A beta L).
  Proof. intros. unfold lr_times_lr. shape. Qed.
  Lemma shape_ll : forall ta tb alpha A B beta L, same_shape (add_lrmat_lrmat_product_lr K id ta tb alpha A B beta L) (add_lrmat_lrmat_product_lr K rc ta tb alpha A B beta L).
  Proof. intros. unfold add_lrmat_lrmat_product_lr. shape. Qed.

  Lemma from_exact : forall out0 out alpha beta L r k c f g, (1 <= r)%nat -> (1 <= c)%nat -> same_shape out0 out -> lr_prod K out0 alpha beta L r k c f g ->
    exists L', out = Some L' /\ close md (eps * fnorm md r c (updated alpha beta k f g L)) r c (updated alpha beta k f g L) L'.
  Proof.
    intros out0 out alpha beta L r k c f g Hr Hc S (L0 & E & V). destruct (S L0 E) as (b & E'). eexists. split; [exact E'|]. apply truncated_or_not; [exact Hr|exact Hc|exact V].
  Qed.

  (** Two truncations. *)
  Variable sv : mat K -> lrm K.
  Hypothesis HSV : svd_truncates md eps sv.
  Lemma add_svd_close : forall AB L beta r c, (1 <= r)%nat -> (1 <= c)%nat -> wf_mat AB r c -> lr_any K L r c ->
    exists L', add_svd K rc sv AB beta L = Some L' /\
      close md (eps * fnorm md r c (fun i j => cadd K (cmul K beta (lr_entry L i j)) (me AB i j)) + eps * (1 + eps) * fnorm md r c (me AB)) r c
        (fun i j => cadd K (cmul K beta (lr_entry L i j)) (me AB i j)) L'.
  Proof.
    intros AB L beta r c Hr Hc WAB WL. unfold add_svd. destruct (HSV AB r c Hr Hc WAB) as ([RU RV] & R2 & R3).
    set (S := fun i j => cadd K (cmul K beta (lr_entry L i j)) (me AB i j)). pose proof (fnorm_pos K md r c S) as NS. pose proof (fnorm_pos K md r c (me AB)) as NP.
    destruct (overwritten K beta L) eqn:Eo.
    - eexists. split; [reflexivity|]. split; [split; assumption|]. split; [exact R2|]. rewrite (fnorm_eq r c _ (error_of (sv AB) (me AB))); [nra|].
      intros i j Hi Hj. unfold error_of, S. assert (cmul K beta (lr_entry L i j) = c0 K) as ->; [|ring]. unfold overwritten in Eo. apply orb_true_iff in Eo. destruct Eo as [Eo|Eo].
      + destruct (ceqb_spec K beta (c0 K)) as [->|]; [ring|discriminate].
      + apply Nat.eqb_eq in Eo. rewrite lr_entry_0 by exact Eo. ring.
    - unfold overwritten in Eo. apply orb_false_iff in Eo. destruct Eo as [_ Eo]. apply Nat.eqb_neq in Eo.
      destruct WL as [WL|[WLU WLV]]; [congruence|]. assert (mr (lU (sv AB)) = r) as -> by apply RU.
      destruct (hcat_ok K _ (lU L) r _ _ RU WLU) as (U & U1 & U2 & U3). rewrite U1.
      destruct (mat_scale_ok K beta _ _ _ WLV) as (VC & S1 & S2 & S3). rewrite S1. assert (mc VC = c) as -> by apply S2.
      destruct (vcat_ok K _ VC c _ _ RV S2) as (V & V1 & V2 & V3). rewrite V1. eexists. split; [reflexivity|].
      destruct (concat_lr K U _ (lU L) V _ VC r c _ _ RU WLU RV S2 U2 V2 U3 V3) as [Wn En].
      assert (Rn : (1 <= lrank (mkLrm U V))%nat) by (unfold lrank; cbn [lU]; destruct U2 as (_ & -> & _); lia).
      destruct (HT (mkLrm U V) r c Hr Hc Wn Rn) as [(Q1 & Q2 & Q3) _]. split; [exact Q1|]. split; [exact Q2|].
      assert (ET : forall i j, (i < r)%nat -> (j < c)%nat -> lr_entry (mkLrm U V) i j = cadd K (lr_entry (sv AB) i j) (cmul K beta (lr_entry L i j))).
      { intros i j Hi Hj. rewrite En by assumption. unfold lr_entry at 1 2. f_equal. rewrite <- sum_mul_l. apply sum_ext. intros q Hq. rewrite S3 by assumption. ring. }
      assert (N1 : fnorm md r c (error_of (rc (mkLrm U V)) S) <= fnorm md r c (error_of (rc (mkLrm U V)) (lr_entry (mkLrm U V))) + fnorm md r c (error_of (sv AB) (me AB))).
      { apply fnorm_triangle. intros i j Hi Hj. unfold error_of. rewrite ET by assumption. unfold S. ring. }
      assert (N2 : fnorm md r c (lr_entry (mkLrm U V)) <= fnorm md r c S + fnorm md r c (error_of (sv AB) (me AB))).
      { eapply Rle_trans; [apply (fnorm_triangle r c S (fun i j => copp K (error_of (sv AB) (me AB) i j)))|].
        - intros i j Hi Hj. rewrite ET by assumption. unfold S, error_of. ring.
        - apply Rplus_le_compat_l. right. apply (fnorm_ext K md). intros i j _ _. apply (md_opp K md MD). }
      assert (N3 : eps * fnorm md r c (lr_entry (mkLrm U V)) <= eps * (fnorm md r c S + eps * fnorm md r c (me AB))) by (apply Rmult_le_compat_l; [exact He|lra]).
      lra.
  Qed.

  (** ** A low-rank matrix added to a hierarchical matrix *)
  Variable parts : ctree -> list ctree.
  Notation hrep := (hrep parts).
  Notation hmat := (rtree (hinfo K)).
  Notation hv := rt_val.
  Notation hl := (hl K).

  Lemma hrep_wf : forall M (A : hmat), hrep M A -> well_formed (hv A) (hl A) [] SyN.
  Proof.
    intros M A H. constructor.
    - intros h Hh. destruct (hrep_hl K parts M A H h Hh) as (_ & _ & E & W & T1 & T2 & _). split; [|left; exact E].
      unfold wf_leaf. split; [exact (ct_size parts _ T1)|]. split; [exact (ct_size parts _ T2)|]. unfold leaf_ok in W. rewrite E.
      destruct (h_data h); [contradiction| |tauto]. split; [exact W|]. split; [congruence|discriminate].
    - intros h Hh. destruct (hrep_hl K parts M A H h Hh) as (E1 & E2 & _). split; assumption.
    - intros h [].
    - congruence.
    - intros i j Hi Hj. rewrite (hrep_count K parts M A H). rewrite Hi, Hj. reflexivity.
  Qed.

  (** A loop on the leaves, the leaves being those of the matrix. *)
  Lemma on_leaves_in : forall (f : hinfo K -> option (hdata K)) (g : nat -> nat -> C -> C) (A : hmat) M, hrep M A ->
    (forall i, In i (hl A) -> exists d, f i = Some d /\ same_kind K (h_data i) d /\ leaf_ok (set_data K i d) /\
         forall a b, (a < c_size (h_t i))%nat -> (b < c_size (h_s i))%nat ->
           stored (set_data K i d) a b = g (c_off (h_t i) + a)%nat (c_off (h_s i) + b)%nat (stored i a b)) ->
    exists B, on_leaves K f A = Some B /\ hupd g A B.
  Proof.
    intros f g A M H. induction H as [i H1 H2 H3 H4 H5 H6|i cs H1 H2 H3 H4 H5 H6 H7 H8 IH]; intros Hf.
    - destruct (Hf i (or_introl eq_refl)) as (d & E1 & E2 & E3 & E4). cbn [on_leaves map_o].
      assert (E : match h_data i with DNone => Some DNone | _ => f i end = Some d).
      { pose proof (leaf_ok_data K i H5). destruct (h_data i); [congruence|exact E1|exact E1]. }
      rewrite E. eexists. split; [reflexivity|]. apply hupd_leaf; [|exact E3|exact E4]. do 6 (split; [reflexivity|]). cbn [h_data]. exact E2.
    - assert (Hne : cs <> []).
      { intros ->. apply Permutation_nil in H7. destruct (ckids (h_t i)) eqn:E1; [destruct (ckids_nonempty _ E1)|].
        destruct (ckids (h_s i)) eqn:E2; [destruct (ckids_nonempty _ E2)|]. discriminate. }
      rewrite hl_node in Hf by exact Hne. cbn [on_leaves]. rewrite H5.
      assert (Q : exists cs', map_o (on_leaves K f) cs = Some cs' /\ Forall2 (hupd g) cs cs').
      { apply map_o_ok. intros c Hc. apply (IH c Hc). intros j Hj. apply Hf. apply in_concat. exists (hl c). split; [apply in_map, Hc|exact Hj]. }
      destruct Q as (cs' & E1 & E2). change (map_o (on_leaves K f) cs = Some cs') in E1. rewrite E1. eexists. split; [reflexivity|].
      assert (Q : mkHinfo K (h_t i) (h_s i) (h_sym i) (h_uplo i) DNone (h_lsym i) (h_luplo i) = i) by (destruct i; cbn in *; congruence). rewrite Q.
      apply hupd_node; assumption.
  Qed.

  (** The leaves rounded one by one: the matrix that results, and its distance to the exact one. *)
  Lemma rounded_leaves : forall (f : hinfo K -> option (hdata K)) (M S : nat -> nat -> C) (A : hmat), hrep M A ->
    (forall i, In i (hl A) -> exists d, f i = Some d /\ same_kind K (h_data i) d /\ leaf_ok (set_data K i d) /\
       fnorm md (c_size (h_t i)) (c_size (h_s i)) (fun a b => csub K (S (c_off (h_t i) + a)%nat (c_off (h_s i) + b)%nat) (stored (set_data K i d) a b)) <=
         eps * fnorm md (c_size (h_t i)) (c_size (h_s i)) (block_at S (h_t i) (h_s i))) ->
    exists B M', on_leaves K f A = Some B /\ hrep M' B /\
      fnorm md (c_size (h_t (hv A))) (c_size (h_s (hv A))) (block_at (fun i j => csub K (M' i j) (S i j)) (h_t (hv A)) (h_s (hv A))) <=
        eps * fnorm md (c_size (h_t (hv A))) (c_size (h_s (hv A))) (block_at S (h_t (hv A)) (h_s (hv A))).
  Proof.
    intros f M S A H Hf.
    set (M' := fun i j => match find (hcovers i j) (hl A) with
      | Some h => match f h with Some d => stored (set_data K h d) (i - c_off (h_t h)) (j - c_off (h_s h)) | None => c0 K end | None => c0 K end).
    pose proof (hrep_wf M A H) as W.
    assert (EM : forall i d, In i (hl A) -> f i = Some d -> forall a b, (a < c_size (h_t i))%nat -> (b < c_size (h_s i))%nat ->
      M' (c_off (h_t i) + a)%nat (c_off (h_s i) + b)%nat = stored (set_data K i d) a b).
    { intros h d Hh Ed a b Ha Hb. destruct (wf_in _ _ _ _ _ W h Hh) as [C1 C2]. apply contains_iff in C1, C2.
      pose proof (wf_once _ _ _ _ _ W (c_off (h_t h) + a)%nat (c_off (h_s h) + b)%nat) as O. unfold M'.
      rewrite (find_unique (hcovers (c_off (h_t h) + a) (c_off (h_s h) + b)) (hl A) h).
      - rewrite Ed. f_equal; lia.
      - rewrite <- O; [lia| |]; apply in_ivb; lia.
      - exact Hh.
      - unfold hcovers. apply andb_true_iff. split; apply in_ivb; lia. }
    destruct (on_leaves_in f (fun i j _ => M' i j) A M H) as (B & E & U).
    { intros i Hi. destruct (Hf i Hi) as (d & E1 & E2 & E3 & _). exists d. split; [exact E1|]. split; [exact E2|]. split; [exact E3|].
      intros a b Ha Hb. symmetry. exact (EM i d Hi E1 a b Ha Hb). }
    exists B, M'. split; [exact E|]. split; [exact (hrep_upd K parts M A H _ B U)|].
    assert (Q : bsum (h_t (hv A)) (h_s (hv A)) (fun i j => md (csub K (M' i j) (S i j)) * md (csub K (M' i j) (S i j))) <=
      eps * eps * bsum (h_t (hv A)) (h_s (hv A)) (fun i j => md (S i j) * md (S i j))).
    { rewrite !(tiling_sum K (hv A) (hl A) [] SyN _ W). cbn [rlsum Algebra.lsum]. 
      assert (Z : forall (l : list (hinfo K)), (forall h, In h l -> In h (hl A)) ->
        rlsum l (fun h => bsum (h_t h) (h_s h) (fun i j => md (csub K (M' i j) (S i j)) * md (csub K (M' i j) (S i j)))) <=
        eps * eps * rlsum l (fun h => bsum (h_t h) (h_s h) (fun i j => md (S i j) * md (S i j)))).
      { intros l Hl. unfold rlsum. rewrite <- (lsum_mul_l Rc). apply rlsum_le. intros h Hh. destruct (Hf h (Hl h Hh)) as (d & E1 & _ & _ & E4).
        rewrite !(bsum_frob K md MD).
        assert (N : fnorm md (c_size (h_t h)) (c_size (h_s h)) (block_at (fun i j => csub K (M' i j) (S i j)) (h_t h) (h_s h)) <=
          eps * fnorm md (c_size (h_t h)) (c_size (h_s h)) (block_at S (h_t h) (h_s h))).
        { eapply Rle_trans; [|exact E4]. right. apply (fnorm_ext K md). intros a b Ha Hb. unfold block_at. rewrite (EM h d (Hl h Hh) E1 a b Ha Hb).
          rewrite <- (md_opp K md MD). f_equal. ring. }
        pose proof (fnorm_pos K md (c_size (h_t h)) (c_size (h_s h)) (block_at (fun i j => csub K (M' i j) (S i j)) (h_t h) (h_s h))) as P1.
        pose proof (fnorm_pos K md (c_size (h_t h)) (c_size (h_s h)) (block_at S (h_t h) (h_s h))) as P2. cbn. nra. }
      specialize (Z (hl A) (fun h Hh => Hh)). unfold rlsum in *. cbn in *. lra. }
    rewrite !(bsum_frob K md MD) in Q.
    set (a := fnorm md (c_size (h_t (hv A))) (c_size (h_s (hv A))) (block_at (fun i j => csub K (M' i j) (S i j)) (h_t (hv A)) (h_s (hv A)))) in *.
    set (b := fnorm md (c_size (h_t (hv A))) (c_size (h_s (hv A))) (block_at S (h_t (hv A)) (h_s (hv A)))) in *.
    assert (0 <= a) by apply fnorm_pos. assert (0 <= b) by apply fnorm_pos. assert (0 <= eps * b) by (apply Rmult_le_pos; assumption).
    apply Rsqr_incr_0_var; [unfold Rsqr; lra|assumption].
  Qed.

  (** One dense leaf of add_lrmat_hmatrix. *)
  Lemma dense_leaf_sum : forall (L : lrm K) (Rt Rs : ctree) (i : hinfo K) (D : mat K), cluster_tree parts (h_t i) -> cluster_tree parts (h_s i) -> contains Rt (h_t i) = true -> contains Rs (h_s i) = true ->
    wf_lrm L (c_size Rt) (c_size Rs) -> (1 <= lrank L)%nat -> wf_mat D (c_size (h_t i)) (c_size (h_s i)) ->
    let ro := (c_off (h_t i) - c_off Rt)%nat in
    let co := (c_off (h_s i) - c_off Rs)%nat in
    let M := c_size (h_t i) in let N := c_size (h_s i) in
    exists D', (do rU <- copy_block K (lU L) ro 0 M (lrank L) (zeros K M (lrank L)) 0 0;
          do rV <- ptr K (HMatModel.md (lV L)) (co * mr (lV L))%nat;
          do d <- gemm K TrN TrN M N (lrank L) (c1 K) (HMatModel.md rU) M rV (lrank L) (c1 K) (HMatModel.md D) M;
          Some (DDense (with_data K D d))) = Some (DDense D') /\ mp D' = mp D /\ wf_mat D' (c_size (h_t i)) (c_size (h_s i)) /\
      forall a b, (a < c_size (h_t i))%nat -> (b < c_size (h_s i))%nat ->
        me D' a b = cadd K (me D a b) (lr_entry L (c_off (h_t i) + a - c_off Rt) (c_off (h_s i) + b - c_off Rs)).
  Proof.
    intros L Rt Rs i D Ci Cj C1 C2 WL RL Li ro co M N. apply contains_iff in C1, C2. pose proof (ct_size parts _ Ci) as S1. pose proof (ct_size parts _ Cj) as S2.
    destruct WL as (WU & WV). destruct WU as (U1 & U2 & U3). destruct WV as (V1 & V2 & V3). fold M N in Li. fold M N.
    set (rk := lrank L) in *. assert (M1 : (1 <= M)%nat) by exact S1. assert (N1 : (1 <= N)%nat) by exact S2.
    destruct (copy_block_ok K (lU L) ro 0 M rk (zeros K M rk) 0 0) as (rU & E1 & E2 & E3); try (cbn [zeros of_fun mkMat mr mc]; unfold ro, M; lia).
    rewrite E1. destruct E2 as (R1 & R2 & R3). cbn [zeros of_fun mkMat mr mc] in R1, R2, R3, E3.
    unfold ptr. rewrite V1. destruct (Nat.leb_spec (co * rk) (length (HMatModel.md (lV L)))) as [Q|Q]; [|exfalso; rewrite V3 in Q; unfold co in Q; nia].
    destruct Li as (D1 & D2 & D3).
    destruct (gemm_ok K TrN TrN M N rk (c1 K) (HMatModel.md rU) (skipn (co * rk) (HMatModel.md (lV L))) M rk (c1 K) (HMatModel.md D) M) as (d & G1 & G2 & G3); unfold rows_of; cbn [is_N]; try lia.
    + apply holds_full. lia.
    + apply holds_true. left. rewrite skipn_length, V3. unfold co, N. nia.
    + apply holds_full. exact D3.
    + rewrite G1. eexists. split; [reflexivity|]. split; [reflexivity|]. split; [split; [exact D1|split; [exact D2|exact (eq_trans G2 D3)]]|].
      intros a b Ha Hb. unfold me at 1. cbn [with_data mr HMatModel.md]. rewrite D1.
      rewrite G3 by assumption. destruct (Nat.ltb_spec a M); [|lia]. destruct (Nat.ltb_spec b N); [|lia]. cbn [andb].
      assert (EM : get (HMatModel.md D) (a + b * M) = me D a b) by (unfold me; rewrite D1; reflexivity). rewrite EM.
      assert (ES : sum rk (fun k => cmul K (op_entry K TrN (HMatModel.md rU) M a k) (op_entry K TrN (skipn (co * rk) (HMatModel.md (lV L))) rk k b)) =
        lr_entry L (c_off (h_t i) + a - c_off Rt) (c_off (h_s i) + b - c_off Rs)).
      { unfold lr_entry. fold rk. apply sum_ext. intros k Hk. cbn [op_entry]. rewrite get_skipn. f_equal.
        - assert (ER : get (HMatModel.md rU) (a + k * M) = me rU a k) by (unfold me; rewrite R1; reflexivity). rewrite ER. rewrite E3 by assumption.
          destruct (Nat.ltb_spec a (0 + M)); [|lia]. destruct (Nat.ltb_spec k (0 + rk)); [|lia]. cbn [Nat.leb andb]. f_equal; unfold ro; lia.
        - unfold me. rewrite V1. f_equal. unfold co. replace (c_off (h_s i) + b - c_off Rs)%nat with (c_off (h_s i) - c_off Rs + b)%nat by lia. lia. }
      rewrite ES. ring.
  Qed.
End P.
