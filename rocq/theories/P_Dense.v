(** * Dense factorisations: C26, C49, C50. *)

From Coq Require Import List Arith ZArith Bool Lia Reals Lra.
From Coq Require Qcanon.
From Verif Require Import BlockModel Algebra BlasModel BlasProofs HMatModel HMatSpec HMatBuild Field RealNum DenseModel DenseSpec DenseProofs DenseLU DenseChol.
Import ListNotations.

(** ** C26 *)

(** One triangular solve: with the pivots of getrf (or none), the matrix solved with is the factor of A, whose lower factor
    contains the permutation. *)
Theorem C26_triangular_solve : forall (F : Fld) s u t d alpha (A B : mat (fk F)) m n,
  1 <= m -> 1 <= n -> wf_mat A (match s with SdL => m | SdR => n end) (match s with SdL => m | SdR => n end) -> wf_mat B m n ->
  (d = DgN -> forall i, i < match s with SdL => m | SdR => n end -> me A i i <> c0 (fk F)) ->
  mp A = [] \/ getrf_pivots (match s with SdL => m | SdR => n end) (mp A) ->
  exists X, triangular_matrix_matrix_solve F s u t d alpha A B = Some X /\ wf_mat X m n /\
    is_solution s t (factor u d A) alpha m n (me B) (me X).
Proof.
  intros F s u t d alpha A B m n H1 H2 H3 H4 H5 H6. destruct (tri_solve_ok F s u t d alpha A B m n H1 H2 H3 H4 H5 H6) as (X & E1 & E2 & _ & E3).
  exists X. repeat split; try assumption; apply E2.
Qed.

(** Factorisation: A = (P^T L) U, with pivots as getrf returns them. *)
Theorem C26_factorization : forall (F : Fld) piv (A : mat (fk F)) n, pivot_rule piv -> 1 <= n -> wf_mat A n n ->
  exists B, lu_factorization F piv A = Some B /\ wf_mat B n n /\ getrf_pivots n (mp B) /\
    (forall i j, i < n -> j < n -> me A i j = sum n (fun q => cmul (fk F) (factor UpL DgU B i q) (factor UpU DgN B q j))) /\
    (injective n (me A) -> forall i, i < n -> me B i i <> c0 (fk F)).
Proof.
  intros F piv A n HP Hn HA. destruct (lu_ok F piv HP n A Hn HA) as (B & E1 & E2 & E3 & E4). exists B. split; [exact E1|]. split; [exact E2|].
  split; [exact E3|]. split; [exact E4|]. intros HI. exact (lu_diag F n (me A) (factor UpL DgU B) B HI E4).
Qed.

(** The two solves one after the other invert A, on both sides and for trans N, T and C. *)
Theorem C26_two_solves_invert : forall (F : Fld) piv (A B R : mat (fk F)) s t alpha m n,
  let na := match s with SdL => m | SdR => n end in
  pivot_rule piv -> 1 <= m -> 1 <= n -> wf_mat A na na -> injective na (me A) -> wf_mat R m n ->
  lu_factorization F piv A = Some B ->
  let first_L := match s with SdL => is_N t | SdR => negb (is_N t) end in
  let solve := fun (lower : bool) alpha R =>
    triangular_matrix_matrix_solve F s (if lower then UpL else UpU) t (if lower then DgU else DgN) alpha B R in
  exists Y X, solve first_L alpha R = Some Y /\ solve (negb first_L) (c1 (fk F)) Y = Some X /\ wf_mat X m n /\
    is_solution s t (me A) alpha m n (me R) (me X).
Proof.
  intros F piv A B R s t alpha m n na HP Hm Hn HA HI HR EF first_L solve. assert (1 <= na) by (unfold na; destruct s; assumption).
  destruct (C26_factorization F piv A na HP ltac:(assumption) HA) as (B' & E1 & E2 & E3 & E4 & E5). rewrite EF in E1. injection E1 as <-. specialize (E5 HI).
  assert (SO : forall (lower : bool) al Q, wf_mat Q m n -> exists X, solve lower al Q = Some X /\ wf_mat X m n /\
    is_solution s t (factor (if lower then UpL else UpU) (if lower then DgU else DgN) B) al m n (me Q) (me X)).
  { intros lower al Q HQ. unfold solve. apply C26_triangular_solve; try assumption; [|right; exact E3].
    intros D. destruct lower; [discriminate|]. exact E5. }
  destruct (SO first_L alpha R HR) as (Y & Y1 & Y2 & Y3). destruct (SO (negb first_L) (c1 (fk F)) Y Y2) as (X & X1 & X2 & X3).
  exists Y, X. split; [exact Y1|]. split; [exact X1|]. split; [exact X2|].
  apply (solution_compose F s t (me A) (factor UpL DgU B) (factor UpU DgN B) alpha m n (me R) (me Y) (me X)); [exact E4|].
  unfold first_L in *. destruct s, (is_N t); cbn [negb] in *; split; assumption.
Qed.
Print Assumptions C26_two_solves_invert.

(** ** C49: lu_solve *)
Theorem C49_dense_lu_solve : forall (F : Fld) lt (A B R : mat (fk F)) t n q, abs_order lt -> 1 <= n -> 1 <= q -> wf_mat A n n -> injective n (me A) ->
  wf_mat R n q -> lu_factorization F (iamax F lt) A = Some B ->
  exists X, lu_solve F t B R = Some X /\ wf_mat X n q /\ is_solution SdL t (me A) (c1 (fk F)) n q (me R) (me X).
Proof.
  intros F lt A B R t n q HL Hn Hq HA HI HR EF.
  destruct (C26_factorization F (iamax F lt) A n (iamax_rule F lt HL) Hn HA) as (B' & E1 & E2 & E3 & E4 & E5). rewrite EF in E1. injection E1 as <-. specialize (E5 HI).
  destruct (getrs_ok F t B R n q Hn Hq E2 HR E3 E5) as (X & X1 & X2 & X3). exists X. split; [exact X1|]. split; [exact X2|].
  revert X3. apply is_solution_ext; [|reflexivity|reflexivity]. intros i j Hi Hj. symmetry. apply E4; assumption.
Qed.
Print Assumptions C49_dense_lu_solve.

(** ** C50: Cholesky *)
Theorem C50_dense_cholesky : forall (F : Fld) ppos psqrt u (A B : mat (fk F)) n, sqrt_rule ppos psqrt -> u <> UpN -> wf_mat A n n -> hermitian n (me A) ->
  cholesky_factorization F ppos psqrt u A = Some (B, true) ->
  wf_mat B n n /\ (forall i, i < n -> me B i i <> c0 (fk F)) /\
  (forall i j, i < n -> j < n -> me A i j =
     match u with
     | UpU => sum n (fun k => cmul (fk F) (cconj (fk F) (triangle UpU DgN B k i)) (triangle UpU DgN B k j))
     | _ => sum n (fun k => cmul (fk F) (triangle UpL DgN B i k) (cconj (fk F) (triangle UpL DgN B j k)))
     end) /\
  forall (R : mat (fk F)) q, 1 <= q -> wf_mat R n q ->
    exists X, cholesky_solve F u B R = Some X /\ wf_mat X n q /\ is_solution SdL TrN (me A) (c1 (fk F)) n q (me R) (me X).
Proof.
  intros F ppos psqrt u A B n HS Hu HA HH E. destruct (cholesky_ok F ppos psqrt HS u n A B Hu HA HH E) as (W & _ & D & V).
  split; [exact W|]. split; [exact D|]. split; [exact V|]. intros R q Hq HR.
  assert (Hn : 1 <= n). { unfold cholesky_factorization in E. destruct HA as (A1 & _). rewrite A1 in E. destruct (Nat.leb_spec 1 n); [assumption|discriminate]. }
  exact (cholesky_solve_ok F u n q A B R Hu Hn Hq W HR D V).
Qed.
Print Assumptions C50_dense_cholesky.

(** ** The hypotheses are met *)
Section Ex.
  Import Qcanon.
  Definition qlt (x y : Qc) : bool := Qc_ltb (Qc_abs x) (Qc_abs y).
  Lemma qlt_order : abs_order (F:=Qf) qlt.
  Proof.
    split.
    - intros x Hx. cbn in *. unfold qlt, Qc_ltb, Qc_abs. destruct (Qclt_le_dec 0 0) as [Z|_]; [exfalso; exact (Qclt_not_eq _ _ Z eq_refl)|].
      destruct (Qclt_le_dec x 0) as [X|X].
      + destruct (Qclt_le_dec 0 (- x)) as [_|Y]; [reflexivity|]. exfalso. apply Qcopp_le_compat in Y. rewrite Qcopp_involutive in Y.
        apply (Qclt_not_le _ _ X). exact Y.
      + destruct (Qclt_le_dec 0 x) as [_|Y]; [reflexivity|]. exfalso. apply Hx. apply Qcle_antisym; assumption.
    - intros x. cbn in *. unfold qlt, Qc_ltb, Qc_abs. destruct (Qclt_le_dec 0 0) as [Z|_]; [exfalso; exact (Qclt_not_eq _ _ Z eq_refl)|].
      destruct (Qclt_le_dec x 0) as [X|X].
      + destruct (Qclt_le_dec (- x) 0) as [Y|_]; [|reflexivity]. exfalso. apply Qclt_le_weak in Y. apply Qcopp_le_compat in Y. rewrite Qcopp_involutive in Y.
        apply (Qclt_not_le _ _ X). exact Y.
      + destruct (Qclt_le_dec x 0) as [Y|_]; [|reflexivity]. exfalso. exact (Qclt_not_le _ _ Y X).
  Qed.

  Definition q (a : Z) : Qc := Q2Qc (QArith_base.inject_Z a).
  (** A 3 x 3 matrix, by columns, for which getrf exchanges rows twice. *)
  Definition exA : mat Qcc := @mkMat Qcc 3 3 (map q [0; 4; 2;  1; 2; 3;  2; 6; 1]%Z).
  Definition exR : mat Qcc := @mkMat Qcc 3 2 (map q [1; 2; 3;  -1; 0; 5]%Z).
  Definition qeqb_list (l l' : list Qc) : bool := forallb (fun p => Qc_eq_bool (fst p) (snd p)) (combine l l') && (length l =? length l').
  Example ex_pivots : match lu_factorization Qf (iamax Qf qlt) exA with Some B => mp B | None => [] end = [2; 3; 3].
  Proof. vm_compute. reflexivity. Qed.
  Example exA_wf : wf_mat exA 3 3. Proof. repeat split. Qed.
  Example exR_wf : wf_mat exR 3 2. Proof. repeat split. Qed.

  (** The product of A by the computed X is R: lu_solve and the two triangular solves, trans N and T. *)
  Definition mulA (t : trans) (X : mat Qcc) : list Qc :=
    flat_map (fun j => map (fun i => @sum Qcc 3 (fun k => (op_fun (K:=Qcc) t (me exA) i k * me X k j)%Qc)) (seq 0 3)) (seq 0 2).
  Definition ex_check (t : trans) : bool :=
    match lu_factorization Qf (iamax Qf qlt) exA with
    | Some B =>
        match lu_solve Qf t B exR with Some X => qeqb_list (mulA t X) (md exR) | None => false end &&
        (let sv := fun (lower : bool) R => triangular_matrix_matrix_solve Qf SdL (if lower then UpL else UpU) t (if lower then DgU else DgN) (q 1) B R in
         match sv (is_N t) exR with
         | Some Y => match sv (negb (is_N t)) Y with Some X => qeqb_list (mulA t X) (md exR) | None => false end
         | None => false
         end)
    | None => false
    end.
  Example ex_checks : ex_check TrN && ex_check TrT && ex_check TrC = true. Proof. vm_compute. reflexivity. Qed.

  (** exA is invertible: it has a left inverse. *)
  Definition exInv : mat Qcc := @mkMat Qcc 3 3 (map (fun a => (q a / q 24)%Qc) [-16; 8; 8;  5; -4; 2;  2; 8; -4]%Z).
  Definition inv_ok : bool :=
    forallb (fun i => forallb (fun j => Qc_eq_bool (@sum Qcc 3 (fun k => (me exInv i k * me exA k j)%Qc)) (if (i =? j)%nat then q 1 else q 0)) (seq 0 3)) (seq 0 3).
  Example inv_ok_true : inv_ok = true. Proof. vm_compute. reflexivity. Qed.
  Lemma exA_injective : injective (F:=Qf) 3 (me exA).
  Proof.
    apply (left_inverse_injective Qf 3 (me exA) (me exInv)). intros i j Hi Hj. pose proof inv_ok_true as H. unfold inv_ok in H.
    assert (H1 := proj1 (forallb_forall _ _) H i ltac:(apply in_seq; lia)). cbv beta in H1.
    assert (H2 := proj1 (forallb_forall _ _) H1 j ltac:(apply in_seq; lia)). cbv beta in H2. apply Qc_eq_bool_correct in H2.
    refine (eq_trans H2 _). destruct (i =? j)%nat; apply Qc_is_canon; reflexivity.
  Qed.
  (** All the hypotheses of C26_two_solves_invert and C49 on the example. *)
  Example ex_hyps : exists B, pivot_rule (F:=Qf) (iamax Qf qlt) /\ wf_mat exA 3 3 /\ injective (F:=Qf) 3 (me exA) /\ wf_mat exR 3 2 /\
    lu_factorization Qf (iamax Qf qlt) exA = Some B.
  Proof.
    destruct (C26_factorization Qf (iamax Qf qlt) exA 3 (iamax_rule Qf qlt qlt_order) ltac:(lia) exA_wf) as (B & E & _). exists B.
    repeat split; try exact E; try (apply (iamax_rule Qf qlt qlt_order); assumption); try apply exA_injective.
  Qed.

  (** Cholesky of [4 2; 2 10] is [2 0; 1 3]. *)
  Definition sq_pos (d : Qc) : bool := existsb (fun r => Qc_eq_bool d (q r * q r)%Qc) [1; 2; 3]%Z.
  Definition sq_root (d : Qc) : Qc := match find (fun r => Qc_eq_bool d (q r * q r)%Qc) [1; 2; 3]%Z with Some r => q r | None => q 0 end.
  Lemma sq_rule : sqrt_rule (F:=Qf) sq_pos sq_root.
  Proof.
    intros d _ H. unfold sq_pos, sq_root in *. destruct (find (fun r => Qc_eq_bool d (q r * q r)%Qc) [1; 2; 3]%Z) as [r|] eqn:E.
    - apply find_some in E. destruct E as (E1 & E2). apply Qc_eq_bool_correct in E2. split; [|split; [reflexivity|symmetry; exact E2]].
      destruct E1 as [<-|[<-|[<-|[]]]]; discriminate.
    - exfalso. apply existsb_exists in H. destruct H as (r & H1 & H2). rewrite (find_none _ _ E r H1) in H2. discriminate.
  Qed.
  Definition exH : mat Qcc := @mkMat Qcc 2 2 (map q [4; 2; 2; 10]%Z).
  Example exH_factored : forallb (fun u => match cholesky_factorization Qf sq_pos sq_root u exH with
    | Some (B, ok) => ok && qeqb_list (md B) (map q match u with UpU => [2; 2; 1; 3] | _ => [2; 1; 2; 3] end%Z) | None => false end) [UpL; UpU] = true.
  Proof. vm_compute. reflexivity. Qed.
  Example exH_hermitian : hermitian (F:=Qf) 2 (me exH).
  Proof. intros i j Hi Hj. destruct i as [|[|]], j as [|[|]]; try lia; apply Qc_is_canon; reflexivity. Qed.
End Ex.

(** The square root of the real numbers and the modulus meet the contracts. *)
Lemma real_sqrt_rule : sqrt_rule (F:=Rf) (fun d => Rltb 0 d) sqrt.
Proof.
  intros d _ H. apply Rltb_true in H. cbn. split; [|split; [reflexivity|apply sqrt_sqrt; lra]]. intros E. apply sqrt_lt_R0 in H. lra.
Qed.
Lemma real_abs_order : abs_order (F:=Rf) (fun x y => Rltb (Rabs x) (Rabs y)).
Proof.
  split.
  - intros x Hx. cbn in *. destruct (Rltb_spec (Rabs 0) (Rabs x)) as [|H]; [reflexivity|]. exfalso. apply H. rewrite Rabs_R0. apply Rabs_pos_lt. exact Hx.
  - intros x. cbn. destruct (Rltb_spec (Rabs x) (Rabs 0)) as [H|]; [|reflexivity]. rewrite Rabs_R0 in H. assert (0 <= Rabs x)%R by apply Rabs_pos. lra.
Qed.
