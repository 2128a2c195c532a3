(** * Cholesky factorisation of hierarchical matrices: C28; dense positive definite matrices: C50. *)

From Coq Require Import List Arith ZArith Bool Lia Permutation QArith.Qcanon Reals Lra.
From Verif Require Import ClusterModel ClusterSpec IOModel IOSpec BlockModel BlockSpec Algebra BlasModel HMatModel HMatSpec Field RealNum
  DenseModel DenseSpec DenseChol DensePos ArithModel ArithSpec ArithDense ArithTree ArithDest P_Arith P_Dense HFactModel HFactSpec HFactSubst HFactSolve HFactHH HFactTri
  HFactLU HFactRenum HFactChol P_HTri.
Import ListNotations.
Local Open Scope nat_scope.

(** [hsym parts u M A]: the triangle u of the matrix M (numbering of the clusters) is stored in A.  [two_way c]: the clusters have
    at most two children.  [posdef ppos n A]: x^H A x is positive unless x = 0.  [star]: the transposition used by the code, 'T'
    for real and 'C' for complex coefficients. *)

(** ** The factorisation succeeds and A holds afterwards the factor *)
Theorem C28_factorization : forall (F : Fld) parts recompress svd_factors ppos psqrt star, exact_recompression recompress -> exact_svd svd_factors ->
  sqrt_rule ppos psqrt -> (star = TrC \/ star = TrT /\ forall x, cconj (fk F) x = x) ->
  forall u M (A : rtree (hinfo (fk F))) fuel,
  let c := h_t (rt_val A) in let n := c_size c in let Mc := fun i j => M (c_off c + i) (c_off c + j) in
  u <> UpN -> hsym parts u M A -> two_way c -> hermitian n Mc -> posdef ppos n Mc -> 3 * cheight c <= fuel ->
  exists A' T, cholesky F recompress svd_factors parts ppos psqrt star fuel u A = Some (A', true) /\ block_of A' = (c, c) /\ htri parts u DgN T A' /\
    forall i j, inc c i -> inc c j -> M i j =
      match u with
      | UpU => csum c (fun x => cmul (fk F) (cconj (fk F) (T x i)) (T x j))
      | _ => csum c (fun x => cmul (fk F) (T i x) (cconj (fk F) (T j x)))
      end.
Proof.
  intros F parts rc sv ppos psqrt star HR HSv HS Hst u M A fuel c n Mc Hu HM HW HH HP Hf.
  destruct (cholesky_h_ok F parts rc sv HR HSv ppos psqrt HS star Hst fuel u M A Hu HM HW HH HP Hf) as (A' & T & E1 & [E2 _] & E3 & E4).
  exists A', (lform F u T). split; [exact E1|]. split; [|split; [exact E3|]].
  - rewrite E2. unfold block_of. destruct (hsym_block F parts u M A HM) as [-> _]. reflexivity.
  - intros i j Hi Hj. rewrite (E4 i j Hi Hj). unfold lform. destruct u; [congruence|reflexivity|]; cbn [is_L]. apply (csum_inc F). intros x _. rewrite cconj_invol. reflexivity.
Qed.
Print Assumptions C28_factorization.

(** ** The factorisation followed by the solve, in user numbering: real matrices *)
Theorem C28_solve_real : forall parts recompress svd_factors, exact_recompression (K := Rc) recompress -> exact_svd (K := Rc) svd_factors ->
  forall N perm (Au : nat -> nat -> R) u (A : rtree (hinfo Rc)) fuel,
  let c := h_t (rt_val A) in let n := c_size c in
  Permutation perm (seq 0 N) -> c_off c + n <= N -> Permutation (slice (c_off c) n perm) (seq (c_off c) n) ->
  let M := fun i j => Au (nth i perm 0) (nth j perm 0) in
  u <> UpN -> hsym (F := Rf) parts u M A -> two_way c ->
  (forall i j, i < n -> j < n -> M (c_off c + i) (c_off c + j) = M (c_off c + j) (c_off c + i)) ->
  (forall x : nat -> R, (exists i, i < n /\ x i <> 0%R) ->
     (0 < sum (K := Rc) n (fun i => x i * sum (K := Rc) n (fun j => M (c_off c + i)%nat (c_off c + j)%nat * x j)))%R) ->
  3 * cheight c <= fuel ->
  exists A', cholesky Rf recompress svd_factors parts (fun d => Rltb 0 d) sqrt TrT fuel u A = Some (A', true) /\
    forall (B : mat Rc) q, 1 <= q -> wf_mat B n q ->
    exists X, cholesky_solve Rf parts TrT perm fuel u A' B = Some X /\ wf_mat X n q /\
      is_solution (F := Rf) SdL TrN (fun i j => Au (c_off c + i) (c_off c + j)) 1%R n q (me B) (me X).
Proof.
  intros parts rc sv HR HSv N perm Au u A fuel c n Hp Hb Hl M Hu HM HW HH HP Hf.
  assert (Hst : TrT = TrC \/ TrT = TrT /\ forall x : car (fk Rf), cconj (fk Rf) x = x) by (right; split; reflexivity).
  destruct (cholesky_h_ok Rf parts rc sv HR HSv (fun d => Rltb 0 d) sqrt real_sqrt_rule TrT Hst fuel u M A Hu HM HW) as (A' & T & E1 & [E2 _] & E3 & E4).
  { intros i j Hi Hj. apply HH; assumption. }
  { intros x Hx. specialize (HP x Hx). match goal with |- Rltb 0 ?e = true => destruct (Rltb_spec 0%R e) as [Q|Q]; [reflexivity|exfalso; apply Q; exact HP] end. }
  { exact Hf. }
  exists A'. split; [exact E1|]. intros B q Hq HB. assert (Et : h_t (rt_val A') = c /\ h_s (rt_val A') = c).
  { destruct (hsym_block Rf parts u M A HM) as [Q _]. unfold block_of in E2. injection E2 as Q1 Q2. split; [exact Q1|exact (eq_trans Q2 Q)]. }
  destruct Et as [Et Es]. unfold cholesky_solve.
  apply (renumbered_ok Rf N perm c Hp Hb Hl (internal_cholesky_solve Rf parts TrT fuel u A') TrN M Au A' q B Et Es); [|reflexivity|exact HB].
  intros P HP'. pose proof (internal_cholesky_solve_ok Rf parts TrT Hst fuel u M T A' q P) as Q. cbn zeta in Q. rewrite Et in Q. apply Q; try assumption. fold c in Hf. lia.
Qed.
Print Assumptions C28_solve_real.

(** ** Complex matrices *)
Definition Cpos (d : R * R) : bool := Rltb 0 (fst d).
Definition Csqrt (d : R * R) : R * R := (sqrt (fst d), 0%R).
Lemma complex_sqrt_rule : sqrt_rule (F := Cf) Cpos Csqrt.
Proof.
  intros [a b] HC HP. unfold Cpos, Csqrt in *. cbn [fst] in *. apply Rltb_true in HP. cbn in HC. unfold Cconj in HC. cbn in HC. injection HC as HC. assert (b = 0%R) by lra. subst b.
  cbn. unfold Cmul, Cconj. cbn. split; [|split].
  - intros E. injection E as E. apply sqrt_lt_R0 in HP. lra.
  - f_equal. lra.
  - f_equal; [|lra]. rewrite sqrt_sqrt by lra. lra.
Qed.
Theorem C28_solve_complex : forall parts recompress svd_factors, exact_recompression (K := Cc) recompress -> exact_svd (K := Cc) svd_factors ->
  forall N perm (Au : nat -> nat -> R * R) u (A : rtree (hinfo Cc)) fuel,
  let c := h_t (rt_val A) in let n := c_size c in
  Permutation perm (seq 0 N) -> c_off c + n <= N -> Permutation (slice (c_off c) n perm) (seq (c_off c) n) ->
  let M := fun i j => Au (nth i perm 0) (nth j perm 0) in
  u <> UpN -> hsym (F := Cf) parts u M A -> two_way c ->
  (forall i j, i < n -> j < n -> M (c_off c + i) (c_off c + j) = Cconj (M (c_off c + j) (c_off c + i))) ->
  (forall x : nat -> R * R, (exists i, i < n /\ x i <> (0%R, 0%R)) ->
     (0 < fst (sum (K := Cc) n (fun i => Cmul (Cconj (x i)) (sum (K := Cc) n (fun j => Cmul (M (c_off c + i)%nat (c_off c + j)%nat) (x j))))))%R) ->
  3 * cheight c <= fuel ->
  exists A', cholesky Cf recompress svd_factors parts Cpos Csqrt TrC fuel u A = Some (A', true) /\
    forall (B : mat Cc) q, 1 <= q -> wf_mat B n q ->
    exists X, cholesky_solve Cf parts TrC perm fuel u A' B = Some X /\ wf_mat X n q /\
      is_solution (F := Cf) SdL TrN (fun i j => Au (c_off c + i) (c_off c + j)) (1%R, 0%R) n q (me B) (me X).
Proof.
  intros parts rc sv HR HSv N perm Au u A fuel c n Hp Hb Hl M Hu HM HW HH HP Hf.
  assert (Hst : TrC = TrC \/ TrC = TrT /\ forall x : car (fk Cf), cconj (fk Cf) x = x) by (left; reflexivity).
  destruct (cholesky_h_ok Cf parts rc sv HR HSv Cpos Csqrt complex_sqrt_rule TrC Hst fuel u M A Hu HM HW) as (A' & T & E1 & [E2 _] & E3 & E4).
  { intros i j Hi Hj. apply HH; assumption. }
  { intros x Hx. specialize (HP x Hx). unfold Cpos. match goal with |- Rltb 0 ?e = true => destruct (Rltb_spec 0%R e) as [Q|Q]; [reflexivity|exfalso; apply Q; exact HP] end. }
  { exact Hf. }
  exists A'. split; [exact E1|]. intros B q Hq HB. assert (Et : h_t (rt_val A') = c /\ h_s (rt_val A') = c).
  { destruct (hsym_block Cf parts u M A HM) as [Q _]. unfold block_of in E2. injection E2 as Q1 Q2. split; [exact Q1|exact (eq_trans Q2 Q)]. }
  destruct Et as [Et Es]. unfold cholesky_solve.
  apply (renumbered_ok Cf N perm c Hp Hb Hl (internal_cholesky_solve Cf parts TrC fuel u A') TrN M Au A' q B Et Es); [|reflexivity|exact HB].
  intros P HP'. pose proof (internal_cholesky_solve_ok Cf parts TrC Hst fuel u M T A' q P) as Q. cbn zeta in Q. rewrite Et in Q. apply Q; try assumption. fold c in Hf. lia.
Qed.
Print Assumptions C28_solve_complex.

(** ** The dense factorisation of a positive definite matrix always succeeds *)
Theorem C50_cholesky_succeeds : forall (F : Fld) ppos psqrt u (A : mat (fk F)) n, sqrt_rule ppos psqrt -> u <> UpN -> 1 <= n -> wf_mat A n n ->
  hermitian n (me A) -> posdef ppos n (me A) -> exists B, cholesky_factorization F ppos psqrt u A = Some (B, true).
Proof. intros F ppos psqrt u A n HS Hu Hn HW HH HP. exact (cholesky_posdef F ppos psqrt HS u n A Hu Hn HW HH HP). Qed.
Print Assumptions C50_cholesky_succeeds.

(** ** A concrete case: the lower triangle of a real symmetric matrix, with a low-rank block; the root is above the partition *)
Section Example.
  Definition vh (t s : ctree) (y : symc) (d : hdata Rc) (cs : list (rtree (hinfo Rc))) : rtree (hinfo Rc) := RNode (mkHinfo Rc t s y UpL d SyN UpL) cs.
  Definition vd (r c : nat) (l : list R) : hdata Rc := DDense (mkMat (K := Rc) r c l).
  Definition vA : rtree (hinfo Rc) := vh yr yr SyS DNone
    [vh ya ya SyS (vd 2 2 [1; 2; 2; 5]%R) []; vh yb ya SyN (DLow (mkLrm (mkMat (K := Rc) 1 1 [1%R]) (mkMat (K := Rc) 1 2 [1; 3]%R))) []; vh yb yb SyS (vd 1 1 [3%R]) []].
  (** Numbering of the clusters: 1 2 1 / 2 5 3 / 1 3 3; the user numbering exchanges the first two points. *)
  Definition vperm : list nat := [1; 0; 2].
  Definition vAu (i j : nat) : R := nth (3 * i + j) [5; 2; 3; 2; 1; 1; 3; 1; 3]%R 0%R.
  Lemma v_sym : hsym (F := Rf) yparts UpL (fun i j => vAu (nth i vperm 0) (nth j vperm 0)) vA.
  Proof.
    destruct y_tree as (Lr & La & Lb). apply (hsym_node Rf); try reflexivity; try assumption.
    - cbn. unfold block_of. cbn. repeat constructor; cbn; intros Q; repeat (destruct Q as [Q|Q]; [discriminate Q|]); exact Q.
    - cbn. unfold block_of. cbn. intros p [<-|[<-|[<-|[]]]]; cbn; auto 12.
    - intros c [<-|[<-|[<-|[]]]]; apply hdest_leaf; cbn; unfold wf_mat, wf_lrm; cbn; repeat split; lia.
    - cbn. unfold block_of. cbn. intros k [<-|[<-|[]]]; auto.
    - intros c k [<-|[<-|[<-|[]]]] Hb; try (unfold block_of in Hb; cbn in Hb; injection Hb as <- E; discriminate E);
        (eapply (hsym_leaf Rf); [reflexivity|reflexivity|assumption|unfold wf_mat; cbn; repeat split|reflexivity|]);
        cbn [rt_val vh h_t h_s ya yb c_size c_off ct_info ci_size ci_off]; intros a b Ha Hb'; destruct a as [|[|a]]; try lia; destruct b as [|[|b]]; try lia; reflexivity.
    - cbn. unfold block_of. cbn. intros o j [<-|[<-|[]]] [<-|[<-|[]]] Hs; cbn in Hs; try lia; auto.
    - intros c o j [<-|[<-|[<-|[]]]] Hb Hs; unfold block_of in Hb; cbn in Hb; injection Hb as <- <-; cbn in Hs; try lia.
      apply (hrep_leaf Rc); try reflexivity; try assumption; [cbn; unfold wf_mat, wf_lrm; cbn; repeat split; lia|].
      cbn [rt_val vh h_t h_s ya yb c_size c_off ct_info ci_size ci_off]. intros a b Ha Hb. destruct a as [|a]; try lia; destruct b as [|[|b]]; try lia; cbn; lra.
  Qed.
  Lemma v_pos : forall x : nat -> R, (exists i, i < 3 /\ x i <> 0%R) ->
    (0 < sum (K := Rc) 3 (fun i => x i * sum (K := Rc) 3 (fun j => vAu (nth i vperm 0%nat) (nth j vperm 0%nat) * x j)))%R.
  Proof.
    intros x Hx. cbn. replace (0 < _)%R with (0 < (x 0%nat + 2 * x 1%nat + x 2%nat) * (x 0%nat + 2 * x 1%nat + x 2%nat) + (x 1%nat + x 2%nat) * (x 1%nat + x 2%nat) + x 2%nat * x 2%nat)%R.
    2:{ f_equal. ring. }
    assert (S : forall y, (0 <= y * y)%R) by (intros y; nra).
    destruct (Req_dec (x 2%nat) 0%R) as [E2|E2].
    - rewrite E2. destruct (Req_dec (x 1%nat) 0%R) as [E1|E1].
      + rewrite E1. destruct Hx as (i & Hi & Hx). assert (x 0%nat <> 0%R) by (destruct i as [|[|[|i]]]; try lia; congruence). assert (0 < x 0%nat * x 0%nat)%R by nra. nra.
      + pose proof (S (x 0%nat + 2 * x 1%nat + 0)%R). assert (0 < x 1%nat * x 1%nat)%R by nra. nra.
    - pose proof (S (x 0%nat + 2 * x 1%nat + x 2%nat)%R). pose proof (S (x 1%nat + x 2%nat)%R). assert (0 < x 2%nat * x 2%nat)%R by nra. nra.
  Qed.
  Lemma y_two : two_way yr.
  Proof. constructor; [cbn; lia|]. intros c [<-|[<-|[]]]; (constructor; [cbn; lia|intros ? []]). Qed.
  (** The hypotheses hold. *)
  Example C28_hyps : exists A', cholesky Rf (fun L => L) (svd_id Rc) yparts (fun d => Rltb 0 d) sqrt TrT 6 UpL vA = Some (A', true) /\
    forall (B : mat Rc) q, 1 <= q -> wf_mat B 3 q ->
    exists X, cholesky_solve Rf yparts TrT vperm 6 UpL A' B = Some X /\ wf_mat X 3 q /\ is_solution (F := Rf) SdL TrN (fun i j => vAu (0 + i) (0 + j)) 1%R 3 q (me B) (me X).
  Proof.
    apply (C28_solve_real yparts (fun L => L) (svd_id Rc) (recompress_id Rc) (svd_id_exact Rc) 3 vperm vAu UpL vA 6);
      try reflexivity; try exact v_sym; try exact y_two; try exact v_pos; try discriminate; try (cbn; lia); try (cbn; apply perm_swap).
    cbn. intros i j Hi Hj. destruct i as [|[|[|i]]]; try lia; destruct j as [|[|[|j]]]; try lia; reflexivity.
  Qed.

  (** By computation, in rational numbers: the same matrix, stored in the lower triangle, in the upper triangle and completely. *)
  Definition uA (u : uplo) : rtree (hinfo Qcc) := yh yr yr DNone
    ([yh ya ya (yd 2 2 [1; 2; 2; 5]%Z) []; yh yb yb (yd 1 1 [3]%Z) []] ++
     match u with UpL => [yh yb ya (yl 1 2 1 [1]%Z [1; 3]%Z) []] | UpU => [yh ya yb (yl 2 1 1 [1; 3]%Z [1]%Z) []]
     | UpN => [yh yb ya (yl 1 2 1 [1]%Z [1; 3]%Z) []; yh ya yb (yl 2 1 1 [1; 3]%Z [1]%Z) []] end).
  Definition uM (i j : nat) : Qc := q (nth (3 * i + j) [5; 2; 3; 2; 1; 1; 3; 1; 3]%Z 0%Z).
  Definition u_ok (s u : uplo) : bool :=
    match cholesky Qf (fun L => L) (svd_id Qcc) yparts sq_pos sq_root TrT 6 u (uA s) with
    | Some (A', true) =>
        match cholesky_solve Qf yparts TrT vperm 6 u A' (mkMat (K := Qcc) 3 2 (map q [1; 2; 3; 4; 5; 6]%Z)) with
        | Some X => forallb (fun p => Qc_eq_bool (sum (K := Qcc) 3 (fun k => Qcmult (uM (fst p) k) (me X k (snd p)))) (q (Z.of_nat (fst p + 3 * snd p + 1)))) (list_prod [0; 1; 2] [0; 1])
        | None => false
        end
    | _ => false
    end.
  Example C28_run : u_ok UpL UpL && u_ok UpU UpU && u_ok UpN UpL && u_ok UpN UpU = true. Proof. vm_compute. reflexivity. Qed.

  (** Outside the hypotheses: three children.  The update of the block (o, j), o <> j, uses L(o,k) L(o,k)^T in place of
      L(o,k) L(j,k)^T: the factorisation reports success, and the solution is wrong. *)
  Definition t1 : ctree := CNode (mkCinfo 0 0 1 1 0 [0]) [].
  Definition t2 : ctree := CNode (mkCinfo 1 1 1 1 1 [1]) [].
  Definition t3 : ctree := CNode (mkCinfo 2 2 1 1 2 [2]) [].
  Definition tr : ctree := CNode (mkCinfo 0 0 3 0 0 [0; 1; 2]) [t1; t2; t3].
  Definition tA : rtree (hinfo Qcc) := yh tr tr DNone
    [yh t1 t1 (yd 1 1 [1]%Z) []; yh t2 t1 (yd 1 1 [3]%Z) []; yh t3 t1 (yd 1 1 [1]%Z) []; yh t2 t2 (yd 1 1 [10]%Z) []; yh t3 t2 (yd 1 1 [2]%Z) []; yh t3 t3 (yd 1 1 [3]%Z) []].
  Definition tM (i j : nat) : Qc := q (nth (3 * i + j) [1; 3; 1; 3; 10; 2; 1; 2; 3]%Z 0%Z).
  Definition tL (i j : nat) : Qc := q (nth (3 * i + j) [1; 0; 0; 3; 1; 0; 1; -1; 1]%Z 0%Z).
  Lemma t_sym : hsym (F := Qf) yparts UpL tM tA.
  Proof.
    assert (L1 : cluster_tree yparts t1) by (constructor; cbn; try (intros; contradiction); try lia; congruence).
    assert (L2 : cluster_tree yparts t2) by (constructor; cbn; try (intros; contradiction); try lia; congruence).
    assert (L3 : cluster_tree yparts t3) by (constructor; cbn; try (intros; contradiction); try lia; congruence).
    assert (Lr : cluster_tree yparts tr).
    { constructor; cbn.
      - lia.
      - intros _. unfold interval. cbn. repeat split.
      - intros c [<-|[<-|[<-|[]]]]; reflexivity.
      - intros c [<-|[<-|[<-|[]]]]; cbn; lia.
      - lia.
      - intros c [<-|[<-|[<-|[]]]]; assumption. }
    apply (hsym_node Qf); try reflexivity; try assumption.
    - cbn. unfold block_of. cbn. repeat constructor; cbn; intros Q; repeat (destruct Q as [Q|Q]; [discriminate Q|]); exact Q.
    - cbn. unfold block_of. cbn. intros p [<-|[<-|[<-|[<-|[<-|[<-|[]]]]]]]; cbn; auto 12.
    - intros c [<-|[<-|[<-|[<-|[<-|[<-|[]]]]]]]; apply hdest_leaf; cbn; unfold wf_mat; cbn; repeat split; lia.
    - cbn. unfold block_of. cbn. intros k [<-|[<-|[<-|[]]]]; auto 12.
    - intros c k [<-|[<-|[<-|[<-|[<-|[<-|[]]]]]]] Hb; try (unfold block_of in Hb; cbn in Hb; injection Hb as <- E; discriminate E);
        (eapply (hsym_leaf Qf); [reflexivity|reflexivity|assumption|unfold wf_mat; cbn; repeat split|reflexivity|]);
        cbn [rt_val yh h_t h_s t1 t2 t3 c_size c_off ct_info ci_size ci_off]; intros a b Ha Hb'; destruct a as [|a]; try lia; destruct b as [|b]; try lia; apply qeq; vm_compute; reflexivity.
    - cbn. unfold block_of. cbn. intros o j [<-|[<-|[<-|[]]]] [<-|[<-|[<-|[]]]] Hs; cbn in Hs; try lia; auto 12.
    - intros c o j [<-|[<-|[<-|[<-|[<-|[<-|[]]]]]]] Hb Hs; unfold block_of in Hb; cbn in Hb; injection Hb as <- <-; cbn in Hs; try lia;
      (apply (hrep_leaf Qcc); try reflexivity; try assumption; [cbn; unfold wf_mat; cbn; repeat split; lia|]);
      cbn [rt_val yh h_t h_s t1 t2 t3 c_size c_off ct_info ci_size ci_off]; intros a b Ha Hb'; destruct a as [|a]; try lia; destruct b as [|b]; try lia; apply qeq; vm_compute; reflexivity.
  Qed.
  Theorem C28_three_children_refuted : exists parts M (A A' : rtree (hinfo Qcc)) (B X : mat Qcc) L,
    hsym (F := Qf) parts UpL M A /\ hermitian (F := Qf) 3 M /\
    (* M = L L^T is positive definite *)
    (forall i j, i < 3 -> j < 3 -> M i j = sum (K := Qcc) 3 (fun k => Qcmult (L i k) (L j k))) /\ (forall i, i < 3 -> L i i = q 1) /\ (forall i j, i < j < 3 -> L i j = q 0) /\
    c_size (h_t (rt_val A)) = 3 /\ wf_mat B 3 1 /\
    cholesky Qf (fun L => L) (svd_id Qcc) parts sq_pos sq_root TrT 6 UpL A = Some (A', true) /\ internal_cholesky_solve Qf parts TrT 6 UpL A' B = Some X /\
    ~ is_solution (F := Qf) SdL TrN M (q 1) 3 1 (me B) (me X).
  Proof.
    exists yparts, tM, tA. eexists. exists (mkMat (K := Qcc) 3 1 (map q [1; 2; 3]%Z)). eexists. exists tL.
    split; [exact t_sym|].
    split. { intros i j Hi Hj. destruct i as [|[|[|i]]]; try lia; destruct j as [|[|[|j]]]; try lia; apply qeq; vm_compute; reflexivity. }
    split. { intros i j Hi Hj. destruct i as [|[|[|i]]]; try lia; destruct j as [|[|[|j]]]; try lia; apply qeq; vm_compute; reflexivity. }
    split. { intros i Hi. destruct i as [|[|[|i]]]; try lia; apply qeq; vm_compute; reflexivity. }
    split. { intros i j Hi. destruct i as [|[|[|i]]]; try lia; destruct j as [|[|[|j]]]; try lia; apply qeq; vm_compute; reflexivity. }
    split; [reflexivity|]. split; [repeat split|]. split; [vm_compute; reflexivity|]. split; [vm_compute; reflexivity|].
    intros H. specialize (H 1 0 ltac:(lia) ltac:(lia)). vm_compute in H. discriminate.
  Qed.
End Example.
Print Assumptions C28_three_children_refuted.
