(** * Local solvers of the domain decomposition preconditioner: C40, C55, C56. *)

From Coq Require Import List Arith ZArith Bool Lia Permutation QArith.Qcanon Reals.
From Verif Require Import ClusterModel ClusterSpec IOModel IOSpec BlockModel BlockSpec Algebra BlasModel HMatModel HMatSpec HMatBuild Field RealNum
  DenseModel DenseSpec DenseProofs DenseLU DenseChol ArithModel ArithSpec ArithDense ArithDest P_Arith P_Dense HFactModel HFactSpec HFactSubst HFactSolve HFactHH HFactTri
  HFactLU HFactRenum P_HTri P_HLU P_HChol LocalModel LocalSpec LocalProofs LocalOverlap LocalSolvers.
Import ListNotations.
Local Open Scope nat_scope.

(** [solved n mu A b x0 x]: x is x0 with its first mu columns of length n replaced by the solutions of A y = (columns of b).
    [can_be_factored parts ppos M A]: A holds the entries M, non-symmetric with non-singular leading blocks, or hermitian positive
    definite with a stored triangle (LocalSpec). *)

(** ** C55: LocalDenseSolver *)
Theorem C55_dense_local_solver : forall (F : Fld) piv (A : mat (fk F)) n, pivot_rule piv -> 1 <= n -> wf_mat A n n -> injective (F := F) n (me A) ->
  exists A', dense_numfact F piv A = Some A' /\
    forall mu b, 1 <= mu -> n * mu <= length b ->
      (exists x, dense_solve F A' b mu = Some x /\ solved n mu (me A) b b x) /\
      (forall x0, n * mu <= length x0 -> exists x, dense_solve_into F A' b x0 mu = Some x /\ solved n mu (me A) b x0 x).
Proof.
  intros F piv A n HP Hn HW HI. destruct (lu_ok F piv HP n A Hn HW) as (A' & E1 & E2 & E3 & E4). pose proof (lu_diag F n (me A) _ A' HI E4) as DG.
  exists A'. split; [exact E1|]. intros mu b Hmu Lb.
  assert (S : solver F n mu (me A) (DenseModel.lu_solve F TrN A')).
  { intros B WB. destruct (getrs_ok F TrN A' B n mu Hn Hmu E2 WB E3 DG) as (X & X1 & X2 & X3). exists X. split; [exact X1|]. split; [exact X2|].
    revert X3. apply is_solution_ext; [|reflexivity|reflexivity]. intros i j Hi Hj. symmetry. apply E4; assumption. }
  assert (Em : mc A' = n) by apply E2. unfold dense_solve, dense_solve_into. rewrite Em. split.
  - apply through_view_ok; assumption.
  - intros x0 Lx. apply into_view_ok; try assumption. reflexivity.
Qed.
Print Assumptions C55_dense_local_solver.

(** ** C56: LocalHMatrixSolver.  With is_using_permutation the system is in user numbering (entries Au, perm the permutation of
    the cluster tree, the cluster being local), without it in the numbering of the cluster. *)
Theorem C56_hmatrix_local_solver : forall (F : Fld) parts recompress svd_factors piv ppos psqrt star,
  exact_recompression recompress -> exact_svd svd_factors -> pivot_rule piv -> sqrt_rule ppos psqrt ->
  (star = TrC \/ star = TrT /\ forall x, cconj (fk F) x = x) ->
  forall M Au N perm (A : rtree (hinfo (fk F))) fuel,
  let c := h_t (rt_val A) in let n := c_size c in
  can_be_factored parts ppos M A -> 3 * cheight c <= fuel ->
  exists A', h_numfact F recompress svd_factors parts piv ppos psqrt star fuel A = Some (A', true) /\
    forall permuted mu b,
    (permuted = true -> Permutation perm (seq 0 N) /\ c_off c + n <= N /\ Permutation (slice (c_off c) n perm) (seq (c_off c) n) /\
       forall i j, i < n -> j < n -> M (c_off c + i) (c_off c + j) = Au (nth (c_off c + i) perm 0) (nth (c_off c + j) perm 0)) ->
    1 <= mu -> n * mu <= length b ->
    let W := fun i j => (if permuted then Au else M) (c_off c + i) (c_off c + j) in
    (exists x, h_solve F parts star fuel perm permuted A' b mu = Some x /\ solved n mu W b b x) /\
    (forall x0, n * mu <= length x0 -> exists x, h_solve_into F parts star fuel perm permuted A' b x0 mu = Some x /\ solved n mu W b x0 x).
Proof.
  intros F parts rc sv piv ppos psqrt star HR HSv HP HS Hst M Au N perm A fuel c n HA Hf.
  destruct (h_numfact_ok F rc sv HR HSv parts piv HP ppos psqrt HS star Hst fuel M A HA Hf) as (A' & E1 & Z1 & Z2 & Z3 & Z4 & R).
  exists A'. split; [exact E1|]. intros permuted mu b Hperm Hmu Lb W. split.
  - apply (h_solve_ok F parts star fuel permuted N perm A' c M Au mu b); try assumption. apply R, Hmu.
  - intros x0 Lx. apply (h_solve_into_ok F parts star fuel permuted N perm A' c M Au mu b x0); try assumption. apply R, Hmu.
Qed.
Print Assumptions C56_hmatrix_local_solver.

(** ** C40: LocalHMatrixPlusOverlapSolver, non-symmetric, both coupling blocks given: the solution of [[A, B], [C, D]] x = b *)
Theorem C40_overlap_solver : forall (F : Fld) parts recompress svd_factors piv ppos psqrt star,
  exact_recompression recompress -> exact_svd svd_factors -> pivot_rule piv ->
  forall M (A : rtree (hinfo (fk F))) (B Cm D : mat (fk F)) p fuel,
  let c := h_t (rt_val A) in let n := c_size c in
  let W := two_by_two n (fun i j => M (c_off c + i) (c_off c + j)) (me B) (me Cm) (me D) in
  h_sym (rt_val A) = SyN -> hrep parts M A -> h_s (rt_val A) = c -> factorable M (c_off c) A -> 3 * cheight c <= fuel ->
  1 <= p -> wf_mat B n p -> wf_mat Cm p n -> wf_mat D p p -> injective (F := F) (n + p) W ->
  exists o, o_numfact F recompress svd_factors parts piv ppos psqrt star fuel (mkOverlap A B Cm D) = Some (o, true) /\
    forall mu b, 1 <= mu -> (n + p) * mu <= length b ->
      (exists x, o_solve F parts star fuel o b mu = Some x /\ solved (n + p) mu W b b x) /\
      (forall x0, (n + p) * mu <= length x0 -> exists x, o_solve_into F parts star fuel o b x0 mu = Some x /\ solved (n + p) mu W b x0 x).
Proof.
  intros F parts rc sv piv ppos psqrt star HR HSv HP M A B Cm D p fuel c n W Hs HM HS HF Hf Hp WB WC WD HI.
  destruct (overlap_solver_ok F rc sv HR HSv parts piv HP ppos psqrt star fuel M A B Cm D p Hs HM HS HF Hf Hp WB WC WD HI) as (o & E1 & E2 & E3 & E4).
  exists o. split; [exact E1|]. intros mu b Hmu Lb.
  assert (S : forall x0, (n + p) * mu <= length x0 -> exists x, o_solve_into F parts star fuel o b x0 mu = Some x /\ solved (n + p) mu W b x0 x).
  { intros x0 Lx. apply (o_solve_into_ok F parts star fuel o c p mu W b x0); try assumption. intros b1 b2 W1 W2. apply E4; assumption. }
  split; [|exact S]. apply S, Lb.
Qed.
Print Assumptions C40_overlap_solver.

(** ** Without overlap, all the symmetries: the solution of A x = b in the numbering of the cluster *)
Theorem C40_no_overlap : forall (F : Fld) parts recompress svd_factors piv ppos psqrt star,
  exact_recompression recompress -> exact_svd svd_factors -> pivot_rule piv -> sqrt_rule ppos psqrt ->
  (star = TrC \/ star = TrT /\ forall x, cconj (fk F) x = x) ->
  forall M (A : rtree (hinfo (fk F))) (B Cm D : mat (fk F)) fuel,
  let c := h_t (rt_val A) in let n := c_size c in
  can_be_factored parts ppos M A -> 3 * cheight c <= fuel -> mc B = 0 -> mr Cm = 0 -> mr D = 0 ->
  exists o, o_numfact F recompress svd_factors parts piv ppos psqrt star fuel (mkOverlap A B Cm D) = Some (o, true) /\
    forall mu b x0, 1 <= mu -> n * mu <= length b -> n * mu <= length x0 ->
      exists x, o_solve_into F parts star fuel o b x0 mu = Some x /\ solved n mu (fun i j => M (c_off c + i) (c_off c + j)) b x0 x.
Proof.
  intros F parts rc sv piv ppos psqrt star HR HSv HP HS Hst M A B Cm D fuel c n HA Hf HB HC HD.
  destruct (no_overlap_ok F rc sv HR HSv parts piv HP ppos psqrt HS star Hst fuel M A B Cm D HA Hf HB HC HD) as (o & E1 & E2 & E3 & E4).
  exists o. split; [exact E1|]. intros mu b x0 Hmu Lb Lx.
  pose proof (o_solve_into_ok F parts star fuel o c 0 mu (fun i j => M (c_off c + i) (c_off c + j)) b x0 E2 E3) as Q. rewrite Nat.add_0_r in Q. apply Q; try assumption.
  intros b1 b2 W1 W2. destruct (E4 b1 b2 mu Hmu W1 W2) as (x1 & x2 & X1 & X2 & X3 & X4). exists x1, x2. split; [exact X1|]. split; [exact X2|]. split; [exact X3|].
  intros i j Hi Hj. destruct (Nat.ltb_spec i (c_size c)) as [_|]; [|lia]. pose proof (X4 i j Hi Hj) as Z. cbn beta iota in Z. cbn [op_fun] in Z.
  transitivity (cmul (fk F) (c1 (fk F)) (me b1 i j)); [|apply (Rmul_1_l (c_ring (fk F)))]. rewrite <- Z. apply sum_ext. intros k Hk.
  unfold at_block. fold c. change (h_t (rt_val A)) with c in Hk. destruct (Nat.ltb_spec k (c_size c)); [reflexivity|lia].
Qed.
Print Assumptions C40_no_overlap.

(** ** The blocks computed by DDMSolverBuilder hold the entries of the generator at the indices of the subdomain... *)
Theorem C40_builder_blocks : forall (F : Fld) (gen : nat -> nat -> car (fk F)) l2g n p sym u, length l2g = n + p ->
  let g := fun i j => gen (nth i l2g 0) (nth j l2g 0) in
  match overlap_blocks F gen l2g n sym u with
  | (B, Cm, D) =>
      wf_mat D p p /\ (forall i j, i < p -> j < p -> me D i j = g (n + i) (n + j)) /\
      (sym = false \/ u = UpU -> wf_mat B n p /\ forall i j, i < n -> j < p -> me B i j = g i (n + j)) /\
      (sym = true -> u = UpL -> wf_mat Cm p n /\ forall i j, i < p -> j < n -> me Cm i j = g (n + i) j) /\
      (* ... but the block C of a non-symmetric matrix is empty *)
      (sym = false -> mr Cm = 0)
  end.
Proof.
  intros F gen l2g n p sym u HL g. unfold overlap_blocks.
  assert (L1 : length (firstn n l2g) = n) by (rewrite firstn_length; lia). assert (L2 : length (skipn n l2g) = p) by (rewrite skipn_length; lia).
  assert (N1 : forall i, i < n -> nth i (firstn n l2g) 0 = nth i l2g 0). { intros i Hi. rewrite <- (firstn_skipn n l2g) at 2. rewrite app_nth1 by lia. reflexivity. }
  assert (N2 : forall i, nth i (skipn n l2g) 0 = nth (n + i) l2g 0). { intros i. rewrite <- (firstn_skipn n l2g) at 2. rewrite app_nth2 by lia. f_equal. lia. }
  assert (G : forall r c k l, wf_mat (gen_block F gen r c) (length r) (length c) /\ (k < length r -> l < length c -> me (gen_block F gen r c) k l = gen (nth k r 0) (nth l c 0))).
  { intros r c k l. split; [apply of_fun_wf|]. intros. unfold gen_block. rewrite of_fun_me by assumption. reflexivity. }
  assert (GD : wf_mat (gen_block F gen (skipn n l2g) (skipn n l2g)) p p /\ (forall i j, i < p -> j < p -> me (gen_block F gen (skipn n l2g) (skipn n l2g)) i j = g (n + i) (n + j))).
  { split; [pose proof (proj1 (G (skipn n l2g) (skipn n l2g) 0 0)) as Q; rewrite L2 in Q; exact Q|]. intros i j Hi Hj. rewrite (proj2 (G _ _ i j)) by lia. rewrite !N2. reflexivity. }
  assert (GB : wf_mat (gen_block F gen (firstn n l2g) (skipn n l2g)) n p /\ (forall i j, i < n -> j < p -> me (gen_block F gen (firstn n l2g) (skipn n l2g)) i j = g i (n + j))).
  { split; [pose proof (proj1 (G (firstn n l2g) (skipn n l2g) 0 0)) as Q; rewrite L1, L2 in Q; exact Q|]. intros i j Hi Hj. rewrite (proj2 (G _ _ i j)) by lia. rewrite N1, N2 by assumption. reflexivity. }
  assert (GC : wf_mat (gen_block F gen (skipn n l2g) (firstn n l2g)) p n /\ (forall i j, i < p -> j < n -> me (gen_block F gen (skipn n l2g) (firstn n l2g)) i j = g (n + i) j)).
  { split; [pose proof (proj1 (G (skipn n l2g) (firstn n l2g) 0 0)) as Q; rewrite L1, L2 in Q; exact Q|]. intros i j Hi Hj. rewrite (proj2 (G _ _ i j)) by lia. rewrite N1, N2 by assumption. reflexivity. }
  destruct GD as [D1 D2]. destruct sym, u; cbn [negb orb]; (split; [exact D1|]; split; [exact D2|]);
    (split; [first [intros _; exact GB | intros [Q|Q]; discriminate Q]|]);
    (split; [first [intros _ _; exact GC | intros Q; discriminate Q | intros _ Q; discriminate Q]|]); first [intros _; reflexivity | intros Q; discriminate Q].
Qed.
Print Assumptions C40_builder_blocks.

Section Example.
  (** C55: the 3 x 3 matrix of P_Dense, of which LAPACK exchanges the rows. *)
  Example C55_hyps : exists A', dense_numfact Qf (iamax Qf qlt) exA = Some A' /\
    forall mu b, 1 <= mu -> 3 * mu <= length b ->
      (exists x, dense_solve Qf A' b mu = Some x /\ solved (K := Qcc) 3 mu (me exA) b b x) /\
      (forall x0, 3 * mu <= length x0 -> exists x, dense_solve_into Qf A' b x0 mu = Some x /\ solved (K := Qcc) 3 mu (me exA) b x0 x).
  Proof. apply (C55_dense_local_solver Qf (iamax Qf qlt) exA 3 (iamax_rule Qf qlt qlt_order)); [lia|apply exA_wf|apply exA_injective]. Qed.

  (** C56: the hierarchical matrix of P_HLU, with the permutation. *)
  Example C56_hyps : exists A', h_numfact Qf (fun L => L) (svd_id Qcc) yparts (iamax Qf qlt) sq_pos sq_root TrT 6 yA = Some (A', true) /\
    forall mu b, 1 <= mu -> 3 * mu <= length b ->
      exists x, h_solve Qf yparts TrT 6 zperm true A' b mu = Some x /\ solved (K := Qcc) 3 mu (fun i j => zAu (0 + i) (0 + j)) b b x.
  Proof.
    destruct (C56_hmatrix_local_solver Qf yparts (fun L => L) (svd_id Qcc) (iamax Qf qlt) sq_pos sq_root TrT (recompress_id Qcc) (svd_id_exact Qcc)
      (iamax_rule Qf qlt qlt_order) sq_rule (or_intror (conj eq_refl (fun x => eq_refl))) (fun i j => zAu (nth i zperm 0) (nth j zperm 0)) zAu 3 zperm yA 6) as (A' & E1 & E2).
    - split; [exact z_rep|]. split; [reflexivity|exact z_factorable'].
    - cbn. lia.
    - exists A'. split; [exact E1|]. intros mu b Hmu Lb. refine (proj1 (E2 true mu b _ Hmu Lb)). intros _. cbn. repeat split; try apply perm_swap; try lia.
  Qed.
  (** C56: the symmetric positive definite matrix of P_HChol. *)
  Example C56_symmetric_hyps : exists A', h_numfact Rf (fun L => L) (svd_id Rc) yparts (iamax Rf (fun x y => Rltb (Rabs x) (Rabs y))) (fun d => Rltb 0 d) sqrt TrT 6 vA = Some (A', true) /\
    forall mu b x0, 1 <= mu -> 3 * mu <= length b -> 3 * mu <= length x0 ->
      exists x, h_solve_into Rf yparts TrT 6 vperm true A' b x0 mu = Some x /\ solved (K := Rc) 3 mu (fun i j => vAu (0 + i) (0 + j)) b x0 x.
  Proof.
    destruct (C56_hmatrix_local_solver Rf yparts (fun L => L) (svd_id Rc) (iamax Rf (fun x y => Rltb (Rabs x) (Rabs y))) (fun d => Rltb 0 d) sqrt TrT (recompress_id Rc) (svd_id_exact Rc)
      (iamax_rule Rf _ real_abs_order) real_sqrt_rule (or_intror (conj eq_refl (fun x => eq_refl))) (fun i j => vAu (nth i vperm 0) (nth j vperm 0)) vAu 3 vperm vA 6) as (A' & E1 & E2).
    - unfold can_be_factored. cbn [vA vh rt_val h_sym h_uplo h_t]. split; [discriminate|]. split; [exact v_sym|]. split; [exact y_two|]. split.
      + intros i j Hi Hj. cbn in Hi, Hj. unfold block. cbn [yr c_off ct_info ci_off]. destruct i as [|[|[|i]]]; try lia; destruct j as [|[|[|j]]]; try lia; reflexivity.
      + intros x Hx. unfold quadratic, block. cbn [yr c_off c_size ct_info ci_off ci_size] in Hx |- *. unfold Rltb. destruct (Rlt_dec _ _) as [|N]; [reflexivity|]. exfalso. apply N. exact (v_pos x Hx).
    - cbn. lia.
    - exists A'. split; [exact E1|]. intros mu b x0 Hmu Lb Lx. refine (proj2 (E2 true mu b _ Hmu Lb) x0 Lx). intros _. cbn. repeat split; try apply perm_swap; try lia.
  Qed.

  (** C40: the same hierarchical matrix with one point in the overlap. *)
  Definition oB : mat Qcc := mkMat (K := Qcc) 3 1 (map q [1; 0; 2]%Z).
  Definition oC : mat Qcc := mkMat (K := Qcc) 1 3 (map q [0; 1; 1]%Z).
  Definition oD : mat Qcc := mkMat (K := Qcc) 1 1 (map q [3]%Z).
  Definition oW : nat -> nat -> Qc := two_by_two (K := Qcc) 3 (fun i j => yM (0 + i) (0 + j)) (me oB) (me oC) (me oD).
  Definition oI : list Qc := map (fun a => Qcdiv (q a) (q 21)) [-120;61;-6;44;135;-73;12;-53;-18;13;-3;8;-39;20;-3;22]%Z.
  Example C40_hyps : exists o, o_numfact Qf (fun L => L) (svd_id Qcc) yparts (iamax Qf qlt) sq_pos sq_root TrT 6 (mkOverlap (F := Qf) yA oB oC oD) = Some (o, true) /\
    forall mu b, 1 <= mu -> 4 * mu <= length b ->
      (exists x, o_solve Qf yparts TrT 6 o b mu = Some x /\ solved (K := Qcc) 4 mu oW b b x) /\
      (forall x0, 4 * mu <= length x0 -> exists x, o_solve_into Qf yparts TrT 6 o b x0 mu = Some x /\ solved (K := Qcc) 4 mu oW b x0 x).
  Proof.
    apply (C40_overlap_solver Qf yparts (fun L => L) (svd_id Qcc) (iamax Qf qlt) sq_pos sq_root TrT (recompress_id Qcc) (svd_id_exact Qcc)
      (iamax_rule Qf qlt qlt_order) yM yA oB oC oD 1 6); try reflexivity; try exact y_rep; try exact z_factorable; try (cbn; lia); try (repeat split).
    apply (z_tree_inj 4 _ oI). vm_compute. reflexivity.
  Qed.

  (** ** The symmetric cases with an overlap give wrong solutions.  The factor of the overlap is a Cholesky factor, but the forward
      substitution of solve assumes a unit diagonal (and, for UPLO = 'U', the backward substitution is missing). *)
  Definition oA1 (u : uplo) : rtree (hinfo Qcc) := RNode (mkHinfo Qcc yb yb SyS u (yd 1 1 [4]%Z) SyN UpN) [].
  Definition o1 (a : Z) : mat Qcc := mkMat (K := Qcc) 1 1 [q a].
  Definition oM1 (i j : nat) : Qc := q 4.
  Definition oW1 : nat -> nat -> Qc := two_by_two (K := Qcc) 1 oM1 (me (o1 2)) (me (o1 2)) (me (o1 5)).
  Definition opos (d : Qc) : bool := negb (QArith_base.Qle_bool d 0%Qc).
  Definition o1_result (u : uplo) : option (list Qc) :=
    match o_numfact Qf (fun L => L) (svd_id Qcc) yparts (iamax Qf qlt) opos sq_root TrT 3 (mkOverlap (F := Qf) (oA1 u) (o1 2) (o1 2) (o1 5)) with
    | Some (o, true) => o_solve Qf yparts TrT 3 o [q 8; q 8] 1
    | _ => None
    end.
  Lemma opos_spec : forall d, opos d = true <-> (0 < d)%Qc.
  Proof.
    intros d. unfold opos. destruct (QArith_base.Qle_bool d 0%Qc) eqn:E; cbn.
    - apply QArith_base.Qle_bool_iff in E. split; [discriminate|]. intros H. exfalso. apply (Qclt_not_le _ _ H). exact E.
    - split; [|reflexivity]. intros _. apply Qcnot_le_lt. intros H. unfold Qcle in H. apply QArith_base.Qle_bool_iff in H. assert (true = false) by (rewrite <- H; exact E). discriminate.
  Qed.
  Lemma oW1_posdef : posdef (F := Qf) opos 2 oW1.
  Proof.
    intros x Hx. apply opos_spec. set (a := x 0). set (b := x 1).
    assert (Q : quadratic (F := Qf) 2 oW1 x = ((q 2 * a + b) * (q 2 * a + b) + (q 2 * b) * (q 2 * b))%Qc).
    { change (quadratic (F := Qf) 2 oW1 x) with (0 + a * (0 + q 4 * a + q 2 * b) + b * (0 + q 2 * a + q 5 * b))%Qc.
      replace (q 4) with (q 2 * q 2)%Qc by (apply qeq; reflexivity). replace (q 5) with (q 2 * q 2 + 1)%Qc by (apply qeq; reflexivity). lazymatch goal with |- @eq _ ?l ?r => change (@eq Qc l r) end. ring. }
    rewrite Q. assert (S : forall y : Qc, (0 <= y * y)%Qc).
    { intros y. destruct (Qclt_le_dec y 0) as [H|H].
      - replace (y * y)%Qc with ((- y) * (- y))%Qc by ring. apply Qclt_minus_iff in H. rewrite Qcplus_0_l in H. apply Qclt_le_weak in H.
        replace 0%Qc with (0 * - y)%Qc by ring. apply Qcmult_le_compat_r; assumption.
      - replace 0%Qc with (0 * y)%Qc by ring. apply Qcmult_le_compat_r; assumption. }
    pose proof (S (q 2 * a + b)%Qc) as S1. pose proof (S (q 2 * b)%Qc) as S2.
    assert (T : (0 <= (q 2 * a + b) * (q 2 * a + b) + (q 2 * b) * (q 2 * b))%Qc) by (replace 0%Qc with (0 + 0)%Qc by ring; apply Qcplus_le_compat; assumption).
    destruct (Qcle_lt_or_eq _ _ T) as [H|H]; [exact H|]. exfalso.
    assert (Z : forall u v : Qc, (0 <= u)%Qc -> (0 <= v)%Qc -> (0 = u + v)%Qc -> v = 0%Qc).
    { intros u v Hu Hv E. apply Qcle_antisym; [|exact Hv]. rewrite E. replace v with (0 + v)%Qc at 1 by ring. apply Qcplus_le_compat; [exact Hu|apply Qcle_refl]. }
    pose proof (Z _ _ S1 S2 H) as B0. rewrite Qcplus_comm in H. pose proof (Z _ _ S2 S1 H) as A0.
    assert (N : forall y : Qc, (y * y)%Qc = 0%Qc -> y = 0%Qc) by (intros y E; destruct (Qcmult_integral _ _ E); assumption).
    apply N in B0. apply N in A0. assert (b = 0%Qc) as B1 by (destruct (Qcmult_integral _ _ B0) as [E|E]; [discriminate E|exact E]).
    rewrite B1, Qcplus_0_r in A0. assert (a = 0%Qc) as A1 by (destruct (Qcmult_integral _ _ A0) as [E|E]; [discriminate E|exact E]).
    destruct Hx as (i & Hi & Hx). apply Hx. destruct i as [|[|i]]; [exact A1|exact B1|lia].
  Qed.
  (** The square roots extracted, of 4 and of 5 - 1, are exact. *)
  Theorem C40_symmetric_refuted : forall u, u <> UpN ->
    can_be_factored (F := Qf) yparts opos oM1 (oA1 u) /\ hermitian (F := Qf) 2 oW1 /\ posdef (F := Qf) opos 2 oW1 /\
    sq_root (q 4) = q 2 /\
    exists x, o1_result u = Some x /\ ~ solved (K := Qcc) 2 1 oW1 [q 8; q 8] [q 8; q 8] x.
  Proof.
    assert (P : posdef (F := Qf) opos 1 (block (F := Qf) yb oM1)).
    { intros x (i & Hi & Hx). destruct i; [|lia]. assert (Q := oW1_posdef (fun k => if k =? 0 then x 0 else 0%Qc)). lapply Q; [clear Q; intros Q|exists 0; split; [apply Nat.lt_0_2|exact Hx]].
      rewrite <- Q. f_equal. set (y := x 0) in *.
      transitivity (0 + y * (0 + q 4 * y))%Qc; [reflexivity|]. transitivity (0 + y * (0 + q 4 * y + q 2 * 0) + 0 * (0 + q 2 * y + q 5 * 0))%Qc; [|reflexivity].
      lazymatch goal with |- @eq _ ?l ?r => change (@eq Qc l r) end. ring. }
    intros u Hu. split; [|split; [|split; [exact oW1_posdef|split; [apply qeq; vm_compute; reflexivity|]]]].
    - cbn [can_be_factored oA1 rt_val h_sym h_uplo h_t]. unfold can_be_factored. cbn [oA1 rt_val h_sym h_uplo h_t]. split; [exact Hu|]. destruct y_tree as (_ & _ & Lb). split; [|split; [|split]].
      + eapply (hsym_leaf Qf); [reflexivity|reflexivity|exact Lb|repeat split|reflexivity|]. cbn [rt_val oA1 h_t h_s yb c_size c_off ct_info ci_size ci_off]. intros [|a'] [|b'] Ha Hb; try lia. reflexivity.
      + constructor; [cbn; lia|intros ? []].
      + intros i j _ _. reflexivity.
      + exact P.
    - intros [|[|i]] [|[|j]] Hi Hj; try lia; apply qeq; vm_compute; reflexivity.
    - destruct (o1_result u) as [x|] eqn:E; [|destruct u; try (contradiction Hu; reflexivity); vm_compute in E; discriminate E].
      exists x. split; [reflexivity|]. intros (_ & S & _). specialize (S 1 0 ltac:(lia) ltac:(lia)).
      destruct u; [| |]; try (contradiction Hu; reflexivity); vm_compute in E; injection E as <-; vm_compute in S; discriminate S.
  Qed.

  (** ** The solver that DDMSolverBuilder makes for a non-symmetric matrix never uses the overlap, the block C being empty: it
      returns the right-hand side unchanged at the points of the overlap. *)
  Definition ogen (i j : nat) : Qc := q (nth (2 * i + j) [4; 2; 1; 5]%Z 0%Z).
  Definition oA2 : rtree (hinfo Qcc) := yh yb yb (yd 1 1 [4]%Z) [].
  Theorem C40_builder_nonsymmetric_refuted :
    hrep (K := Qcc) yparts oM1 oA2 /\ factorable (F := Qf) oM1 2 oA2 /\ injective (F := Qf) 2 ogen /\
    match overlap_blocks Qf ogen [0; 1] 1 false UpN with
    | (B, Cm, D) =>
        (me B 0 0 = ogen 0 1 /\ me D 0 0 = ogen 1 1 /\ oM1 2 2 = ogen 0 0) /\
        exists o x, o_numfact Qf (fun L => L) (svd_id Qcc) yparts (iamax Qf qlt) sq_pos sq_root TrT 3 (mkOverlap (F := Qf) oA2 B Cm D) = Some (o, true) /\
          o_solve Qf yparts TrT 3 o [q 8; q 8] 1 = Some x /\ ~ solved (K := Qcc) 2 1 ogen [q 8; q 8] [q 8; q 8] x
    end.
  Proof.
    destruct y_tree as (_ & _ & Lb). split; [|split; [|split]].
    - apply (hrep_leaf Qcc); try reflexivity; try assumption; [repeat split|]. cbn [rt_val yh oA2 h_t h_s yb c_size c_off ct_info ci_size ci_off]. intros [|a] [|b] Ha Hb; try lia. reflexivity.
    - eapply factorable_leaf; [reflexivity|]. cbn [yh oA2 rt_val h_t yb c_off c_size ct_info ci_off ci_size]. apply (z_tree_inj 1 _ [Qcdiv (q 1) (q 4)]). vm_compute. reflexivity.
    - apply (z_tree_inj 2 _ (map (fun a => Qcdiv (q a) (q 18)) [5; -2; -1; 4]%Z)). vm_compute. reflexivity.
    - assert (R : match overlap_blocks Qf ogen [0; 1] 1 false UpN with (B, Cm, D) =>
        (Qc_eq_bool (me B 0 0) (ogen 0 1) && Qc_eq_bool (me D 0 0) (ogen 1 1) && Qc_eq_bool (oM1 2 2) (ogen 0 0)) &&
        match o_numfact Qf (fun L => L) (svd_id Qcc) yparts (iamax Qf qlt) sq_pos sq_root TrT 3 (mkOverlap (F := Qf) oA2 B Cm D) with
        | Some (o, true) => match o_solve Qf yparts TrT 3 o [q 8; q 8] 1 with
            | Some x => negb (Qc_eq_bool (sum (K := Qcc) 2 (fun k => Qcmult (ogen 1 k) (entry (K := Qcc) 2 x k 0))) (q 8)) | None => false end
        | _ => false end end = true) by (vm_compute; reflexivity).
      destruct (overlap_blocks Qf ogen [0; 1] 1 false UpN) as [[B Cm] D]. apply andb_true_iff in R. destruct R as [R1 R2]. apply andb_true_iff in R1. destruct R1 as [R1 R3].
      apply andb_true_iff in R1. destruct R1 as [R1 R4]. apply qeq in R1, R3, R4. split; [auto|].
      destruct (o_numfact _ _ _ _ _ _ _ _ _ _) as [[o b]|]; [|discriminate R2]. destruct b; [|discriminate R2]. destruct (o_solve _ _ _ _ o _ _) as [x|] eqn:E; [|discriminate R2].
      exists o, x. split; [reflexivity|]. split; [exact E|]. intros (_ & S & _). specialize (S 1 0 ltac:(lia) ltac:(lia)).
      apply negb_true_iff in R2. assert (Q : Qc_eq_bool (q 8) (q 8) = false); [|discriminate Q]. rewrite <- R2. f_equal. symmetry. exact S.
  Qed.
End Example.
Print Assumptions C40_symmetric_refuted.
Print Assumptions C40_builder_nonsymmetric_refuted.
