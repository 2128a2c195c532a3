(** * Property C68: the GenEO coarse space.

    Vocabulary: GeneoModel.v and SolverModel.v (model), GeneoSpec.v (specification). *)

From Coq Require Import List Arith Bool Lia Permutation ZArith Qcanon.
From Verif Require Import ClusterModel ClusterSpec ClusterMore IOModel BlockModel BlockSpec Algebra BlasModel BlasProofs HMatModel HMatSpec HMatBuild HMatTop P_HMat P_Diag Field
  DenseModel DenseSpec DistModel SolverModel SolverSpec P_Solver CompSpec OvrModel OvrSpec OvrProofs P_Ovr GeneoModel GeneoSpec GeneoProofs.
Import ListNotations.
Open Scope nat_scope.

(** ** The local matrix *)

(** The matrix of the pencil is D Ai D: the entries of Ai inside, zero for the overlap.  Ai has the size of the subdomain or of its part
    inside. *)
Theorem C68_weighted_matrix :
  forall (X : Num) inside n m (Ai : mat (fk (nfd X))), inside <= n -> (m = n \/ m = inside) -> wf_mat Ai m m ->
    exists D, build_daid _ inside n Ai = Some D /\ wf_mat D n n /\ forall i j, i < n -> j < n -> me D i j = weighted inside (me Ai) i j.
Proof.
  intros X inside n m Ai Hin Hm HW. destruct (daid_ok _ inside n m Ai Hin Hm HW) as (D & E1 & E2 & E3). exists D. split; [exact E1|]. split; [exact E2|].
  intros i j Hi Hj. rewrite E3 by assumption. apply weighted_entry.
Qed.
Print Assumptions C68_weighted_matrix.

(** The hierarchical matrix of the subdomain with its overlap (DDMSolverBuilder): the copy is in the local numbering. *)
Theorem C68_subdomain_hmatrix :
  forall (X : Num) gen l2g tp sy u adm compress fuel T parts A inside,
    letters_ok (fk (nfd X)) sy u -> (sy = SyN \/ forall i j, gen j i = flip sy (gen i j)) ->
    partitioned T parts -> nonempty T -> compress_ok _ compress -> positive_rank _ compress ->
    interval T = (0, length l2g) -> numbering (length l2g) tp ->
    local_hmatrix _ gen l2g tp sy u adm compress fuel T parts = Some A ->
    compress_within _ (fun i j => gen (nth (tp i) l2g 0) (nth (tp j) l2g 0)) compress eq -> inside <= length l2g ->
    exists Ai, geneo_dense X tp inside (length l2g) A = Some Ai /\
      gives (fun _ _ => True) inside (length l2g) Ai (fun i j => gen (nth i l2g 0) (nth j l2g 0)).
Proof.
  intros X gen l2g tp sy u adm compress fuel T parts A inside Hl Hg HT NT Hco Hrk HI HN HA Hw Hin.
  destruct (with_overlap_ok _ gen l2g tp sy u adm compress fuel T parts A Hl Hg HT NT Hco Hrk HI HN HA) as (M & E1 & E2).
  destruct (C66_local_hmatrix _ gen l2g tp sy u adm compress fuel T parts A Hl Hg HT NT Hco HA) as (T1 & T2 & _).
  assert (O : c_size T = length l2g) by (unfold interval in HI; injection HI as Q1 Q2; exact Q2).
  exists M. split.
  - unfold geneo_dense. unfold with_overlap in E1. rewrite T1, O in E1. rewrite T1, T2, O, Nat.eqb_refl. exact E1.
  - destruct (E2 eq) as [W R]; [reflexivity|congruence|exact Hw|]. exists (length l2g). split; [left; reflexivity|]. split; [exact W|].
    intros i j Hi Hj _. apply R; [lia|lia|exact I].
Qed.
Print Assumptions C68_subdomain_hmatrix.

(** The diagonal block of the process, if there is an overlap: the copy is in the numbering of the tree, which is the local numbering. *)
Theorem C68_diagonal_block :
  forall (X : Num) sy B gen perm tp compress u f A l2g,
    (sy = SyN /\ bb_uplo B = UpN /\ partitioned u (bb_sparts B)) \/
    ((sy = SyS \/ sy = SyH) /\ (forall i j, gen j i = flip sy (gen i j)) /\ bb_uplo B = UpL /\ bb_sparts B = bb_tparts B) ->
    bb_cons B = true -> partitioned u (bb_tparts B) -> nonempty u -> compress_ok _ compress -> positive_rank _ compress ->
    (bb_tpart B = None /\ bb_qpart B = None) \/ (exists q, bb_tpart B = Some q /\ bb_qpart B = Some q /\ nth_error (bb_tparts B) q = Some u) ->
    let g := fun i j => gen (perm i) (perm j) in
    hbuild (fk (nfd X)) sy B g compress f u u = Some A -> h_t (rt_val A) = u -> h_s (rt_val A) = u -> compress_within _ g compress eq ->
    starts_with_cluster perm (c_off u) (c_size u) l2g -> c_size u < length l2g ->
    exists Ai, geneo_dense X tp (c_size u) (length l2g) A = Some Ai /\
      gives (match sy with SyN => fun _ _ => True | _ => in_triangle UpL end) (c_size u) (length l2g) Ai (fun i j => gen (nth i l2g 0) (nth j l2g 0)).
Proof.
  intros X sy B gen perm tp compress u f A l2g Hc HC HT NT Hco Hrk HR g HA Et Es Hw Hst Hlt.
  destruct (C66_without_overlap _ sy B gen perm compress u f A Hc HC HT NT Hco Hrk HR HA Et Es) as (M & E1 & E2).
  exists M. split.
  - unfold geneo_dense. unfold without_overlap in E1. rewrite Et, Es in *. rewrite (proj2 (Nat.eqb_neq _ _)) by lia. rewrite Nat.eqb_refl. exact E1.
  - destruct (E2 eq) as [W Rs]; [reflexivity|congruence|exact Hw|]. rewrite map_length, seq_length in *. exists (c_size u). split; [right; reflexivity|]. split; [exact W|].
    intros i j Hi Hj Q. rewrite Rs; [|exact Hi|exact Hj|destruct sy; exact Q]. rewrite !(start_nth perm (c_off u) (c_size u) l2g) by assumption.
    assert (N : forall i, i < c_size u -> nth i (map perm (seq (c_off u) (c_size u))) 0 = perm (c_off u + i)).
    { intros k Hk. rewrite (nth_indep _ 0 (perm 0)) by (rewrite map_length, seq_length; exact Hk). rewrite map_nth, seq_nth by exact Hk. reflexivity. }
    rewrite !N by assumption. reflexivity.
Qed.
Print Assumptions C68_diagonal_block.

(** The builders from a hierarchical matrix: what the builders from the dense matrix above do. *)
Theorem C68_from_hmatrix :
  forall X gv ggev sort tiny tp inside n A Ai Bi sy up, geneo_dense X tp inside n A = Some Ai ->
    (forall nu, geneo_with_nu_h X gv ggev sort tiny tp inside n A Bi sy up nu = geneo_with_nu X gv ggev sort tiny inside n Ai Bi sy up nu) /\
    (forall thr, geneo_with_threshold_h X gv ggev sort tiny tp inside n A Bi sy up thr = geneo_with_threshold X gv ggev sort tiny inside n Ai Bi sy up thr).
Proof. intros X gv ggev sort tiny tp inside n A Ai Bi sy up E. unfold geneo_with_nu_h, geneo_with_threshold_h. rewrite E. split; reflexivity. Qed.
Print Assumptions C68_from_hmatrix.

(** ** The coarse space *)

Section Sym.
  Variable X : Num.
  Notation K := (fk (nfd X)).
  Notation C := (car K).

  Lemma held_columns : forall n inside m (v : list C) index (Z : mat K), Permutation index (seq 0 n) ->
    holds_vectors K Z (mkMat n n v) n inside (length (firstn m index)) index -> coarse_columns n inside (column n v) (firstn m index) Z.
  Proof.
    intros n inside m v index Z Hp (H1 & H2 & H3 & H4). split; [repeat split; assumption|]. intros i j k Hi Hk.
    assert (Hj : j < length (firstn m index)) by (apply nth_error_Some; congruence). rewrite H4 by assumption.
    assert (Q : nth j index 0 = k).
    { apply nth_error_nth with (d := 0) in Hk. rewrite <- Hk. rewrite <- (firstn_skipn m index) at 1. apply app_nth1. exact Hj. }
    rewrite Q. unfold me, column. cbn [md mr mkMat]. apply unity_mul.
  Qed.
  Lemma nu_held : forall n inside nevi m (v : list C) index (Z : mat K), Permutation index (seq 0 n) -> length (firstn m index) = nevi ->
    holds_vectors K Z (mkMat n n v) n inside nevi index -> coarse_columns n inside (column n v) (firstn m index) Z.
  Proof. intros n inside nevi m v index Z Hp <-. apply held_columns. exact Hp. Qed.
End Sym.

(** Symmetric or Hermitian pencils.  A, B: the whole matrices of which LAPACK reads one triangle. *)
Record sym_inputs (X : Num) gv sort (inside n : nat) (Ai Bi : mat (fk (nfd X))) (up : uplo) (A B : nat -> nat -> car (fk (nfd X))) : Prop := {
  si_laws : abs_laws X;
  si_gv : gv_answers gv up n (md Bi) (weighted inside A) B;
  si_sort : sort_rule sort;
  si_in : inside <= n;
  si_Ai : gives (in_triangle up) inside n Ai A;
  si_A : hermitian (F := nfd X) inside A;
  si_B : hermitian (F := nfd X) n B
}.
(** The contract of LAPACK gives the hypothesis on gv. *)
Theorem C68_lapack_answers :
  forall (X : Num) ppos gv up inside n (Bi : mat (fk (nfd X))) A B, gv_rule ppos gv -> up <> UpN -> stores (in_triangle up) n (md Bi) B ->
    hermitian (F := nfd X) inside A -> hermitian (F := nfd X) n B -> posdef (F := nfd X) ppos n B -> gv_answers gv up n (md Bi) (weighted inside A) B.
Proof. intros X ppos gv up inside n Bi A B Hg Hu HB HA HhB Hp. apply (Hg up n (md Bi) _ B Hu HB); [apply weighted_hermitian; exact HA|exact HhB|exact Hp]. Qed.
Print Assumptions C68_lapack_answers.

(** Eigenvectors of D A D v = w B v, orthonormal for B. *)
Definition spectrum (X : Num) (inside n : nat) (A B : nat -> nat -> car (fk (nfd X))) (w : nat -> car (fk (nfd X))) (v : nat -> nat -> car (fk (nfd X))) : Prop :=
  (forall k, k < n -> eigenvector n (weighted inside A) B (w k) (c1 _) (v k)) /\
  (forall k l, k < n -> l < n -> inner n B (v k) (v l) = if k =? l then c1 _ else c0 _).

Lemma sym_facts : forall X gv sort inside n Ai Bi up A B, sym_inputs X gv sort inside n Ai Bi up A B ->
  exists D w v, build_daid _ inside n Ai = Some D /\ gv up n (md D) (md Bi) = Some (w, v) /\ length v = n * n /\
    spectrum X inside n A B (get w) (column n v) /\
    let val := fun k => nabs X (get w k) in
    let index := sort (fun a b => nltb X (val b) (val a)) (seq 0 n) in
    Permutation index (seq 0 n) /\ sorted_by (fun a b => nltb X (val b) (val a)) index.
Proof.
  intros X gv sort inside n Ai Bi up A B [Hl Hgv Hs Hin (m & Hm & HW & HA) HhA HhB].
  destruct (C68_weighted_matrix X inside n m Ai Hin Hm HW) as (D & E1 & (W1 & W2 & W3) & E3).
  assert (SD : stores (in_triangle up) n (md D) (weighted inside A)).
  { split; [exact W3|]. intros i j Hi Hj Q. specialize (E3 i j Hi Hj). unfold me at 1 in E3. rewrite W1 in E3. rewrite E3. rewrite <- !weighted_entry.
    destruct (Nat.ltb_spec i inside), (Nat.ltb_spec j inside); try reflexivity. cbn [andb]. apply HA; assumption. }
  destruct (Hgv (md D) SD) as (w & v & G1 & G2 & G3 & G4 & G5).
  exists D, w, v. split; [exact E1|]. split; [exact G1|]. split; [exact G3|]. split; [split; assumption|].
  apply Hs. apply larger_weak. apply laws_weak. exact Hl.
Qed.

(** GeneoWithNu: the nu vectors of the largest eigenvalues (in modulus), times the partition of unity. *)
Theorem C68_symmetric_nu :
  forall X gv ggev sort tiny inside n Ai Bi up A B sy nu, sym_inputs X gv sort inside n Ai Bi up A B -> sy = SyS \/ sy = SyH -> nu <= n ->
    nltb X (c0 _) (copp _ (c1 _)) = false ->
    exists w v ks Z, geneo_with_nu X gv ggev sort tiny inside n Ai Bi sy up nu = Some Z /\
      spectrum X inside n A B w v /\ leading (fun a b => nltb X (nabs X (w b)) (nabs X (w a))) n ks /\ length ks = nu /\ coarse_columns n inside v ks Z.
Proof.
  intros X gv ggev sort tiny inside n Ai Bi up A B sy nu H Hsy Hnu Hm1.
  destruct (sym_facts _ _ _ _ _ _ _ _ _ _ H) as (D & w & v & E1 & E2 & E3 & E4 & E5 & E6). cbv zeta in E5, E6.
  set (index := sort _ _) in *. assert (Li : length index = n) by (rewrite (Permutation_length E5); apply seq_length).
  destruct (vectors_ok _ n inside nu (mkMat n n v) index E5 Hnu (si_in _ _ _ _ _ _ _ _ _ _ H) eq_refl E3) as (Z & F1 & F2).
  assert (Lf : length (firstn nu index) = nu) by (rewrite firstn_length; lia).
  exists (get w), (column n v), (firstn nu index), Z. split; [|split; [exact E4|split; [apply firstn_leading; assumption|split; [exact Lf|]]]].
  - unfold geneo_with_nu, geneo. rewrite E1. unfold build_coarse_space. rewrite Hm1. destruct Hsy as [-> | ->]; rewrite E2; exact F1.
  - apply (nu_held X n inside nu); assumption.
Qed.
Print Assumptions C68_symmetric_nu.

(** GeneoWithThreshold on a subdomain with an overlap: the vectors of the eigenvalues above the threshold, all of them and no other.  The
    matrix D A D has a kernel, hence an eigenvalue zero, at which the selection stops. *)
Theorem C68_symmetric_threshold :
  forall X gv ggev sort tiny inside n Ai Bi up A B sy thr, sym_inputs X gv sort inside n Ai Bi up A B -> sy = SyS \/ sy = SyH -> inside < n ->
    nltb X (c0 _) thr = true -> nabs X (c0 _) = c0 _ ->
    exists w v ks Z, geneo_with_threshold X gv ggev sort tiny inside n Ai Bi sy up thr = Some Z /\
      spectrum X inside n A B w v /\ leading (fun a b => nltb X (nabs X (w b)) (nabs X (w a))) n ks /\
      (forall k, k < n -> In k ks <-> nltb X thr (nabs X (w k)) = true) /\ coarse_columns n inside v ks Z.
Proof.
  intros X gv ggev sort tiny inside n Ai Bi up A B sy thr H Hsy Hlt Hthr Habs.
  destruct (sym_facts _ _ _ _ _ _ _ _ _ _ H) as (D & w & v & E1 & E2 & E3 & E4 & E5 & E6). cbv zeta in E5, E6.
  set (index := sort _ _) in *. assert (Li : length index = n) by (rewrite (Permutation_length E5); apply seq_length).
  destruct E4 as [S1 S2].
  destruct (zero_eigenvalue X n (weighted inside A) B (get w) (column n v) (fun i => if i =? inside then c1 _ else c0 _)) as (k0 & Hk0 & Hw0).
  { apply weighted_hermitian. apply (si_A _ _ _ _ _ _ _ _ _ _ H). }
  { apply (si_B _ _ _ _ _ _ _ _ _ _ H). }
  { exact S1. }
  { exact S2. }
  { exists inside. split; [exact Hlt|]. rewrite Nat.eqb_refl. apply f_10. }
  { intros i Hi. unfold product. apply sum_0. intros j Hj. rewrite <- weighted_entry.
    destruct (Nat.eqb_spec j inside) as [->|Hj'].
    - rewrite Nat.ltb_irrefl, andb_false_r. apply mul_0l.
    - apply mul_0r. }
  destruct (C41_threshold_keeps_exactly_the_large _ _ (fun a b => nltb X b a) thr (fun k => nabs X (get w k)) n inside (mkMat n n v) index) as (m & Z & F1 & F2 & F3).
  { destruct (laws_weak X (si_laws _ _ _ _ _ _ _ _ _ _ H)) as [L1 L2 L3]. split; [exact L1| |intros a b Q; apply L3; exact Q].
    intros a b c Q. destruct (L2 _ b _ Q); auto. }
  { exact E5. } { exact E6. } { apply (si_in _ _ _ _ _ _ _ _ _ _ H). } { reflexivity. } { exact E3. }
  { exists k0. split; [exact Hk0|]. rewrite Hw0, Habs. apply (al_asym X (si_laws _ _ _ _ _ _ _ _ _ _ H)). exact Hthr. }
  exists (get w), (column n v), (firstn m index), Z. split; [|split; [split; assumption|split; [apply firstn_leading; assumption|split; [exact F3|]]]].
  - unfold geneo_with_threshold, geneo. rewrite E1. unfold build_coarse_space. rewrite Hthr. destruct Hsy as [-> | ->]; rewrite E2; exact F1.
  - apply (nu_held X n inside m); [exact E5| |exact F2].
    assert (m <= n).
    { destruct (le_lt_dec m n) as [L|L]; [exact L|exfalso]. apply (f_10 (nfd X)). destruct F2 as (_ & Q2 & _).
      (* all the indices would be kept *)
      assert (In k0 (firstn m index)) by (rewrite firstn_all2 by lia; apply (Permutation_in _ (Permutation_sym E5)); apply in_seq; lia).
      apply F3 in H0; [|exact Hk0]. cbn beta in H0. rewrite Hw0, Habs, (al_asym X (si_laws _ _ _ _ _ _ _ _ _ _ H) _ _ Hthr) in H0. discriminate H0. }
    rewrite firstn_length. lia.
Qed.
Print Assumptions C68_symmetric_threshold.

(** Without symmetry.  [finite]: eigenvalues alpha / beta with |beta| >= 1e-15; the others count as infinite. *)
Record gen_inputs (X : Num) ggev sort (inside n : nat) (Ai Bi : mat (fk (nfd X))) (A B : nat -> nat -> car (fk (nfd X))) : Prop := {
  gi_laws : abs_laws X;
  gi_ggev : ggev_answers ggev n (md Bi) (weighted inside A) B;
  gi_real : real_answers ggev n (md Bi) (weighted inside A);
  gi_sort : sort_rule sort;
  gi_in : inside <= n;
  gi_Ai : gives (fun _ _ => True) inside n Ai A
}.
Definition larger_ratio (X : Num) (tiny : car (fk (nfd X))) (ar be : nat -> car (fk (nfd X))) (a b : nat) : bool :=
  (nltb X (nabs X (be a)) tiny || nltb X (nabs X (fdiv (nfd X) (ar b) (be b))) (nabs X (fdiv (nfd X) (ar a) (be a)))) && negb (nltb X (nabs X (be b)) tiny).

Lemma gen_facts : forall X ggev sort tiny inside n Ai Bi A B, gen_inputs X ggev sort inside n Ai Bi A B ->
  exists D ar ai be v, build_daid _ inside n Ai = Some D /\ ggev n (md D) (md Bi) = Some (ar, ai, be, v) /\ length v = n * n /\
    (forall k, k < n -> eigenvector n (weighted inside A) B (get ar k) (get be k) (column n v k)) /\
    let index := sort (larger_ratio X tiny (get ar) (get be)) (seq 0 n) in
    Permutation index (seq 0 n) /\ sorted_by (larger_ratio X tiny (get ar) (get be)) index.
Proof.
  intros X ggev sort tiny inside n Ai Bi A B [Hl Hgv Hre Hs Hin (m & Hm & HW & HA)].
  destruct (C68_weighted_matrix X inside n m Ai Hin Hm HW) as (D & E1 & (W1 & W2 & W3) & E3).
  assert (SD : stores (fun _ _ => True) n (md D) (weighted inside A)).
  { split; [exact W3|]. intros i j Hi Hj Q. specialize (E3 i j Hi Hj). unfold me at 1 in E3. rewrite W1 in E3. rewrite E3. rewrite <- !weighted_entry.
    destruct (Nat.ltb_spec i inside), (Nat.ltb_spec j inside); try reflexivity. cbn [andb]. apply HA; auto. }
  destruct (Hgv (md D) SD) as (ar & ai & be & v & G1 & G2 & G3 & G4 & G5).
  exists D, ar, ai, be, v. split; [exact E1|]. split; [exact G1|]. split; [exact G4|]. split.
  - intros k Hk. apply G5; [exact Hk|]. destruct (Hre (md D) ar ai be v SD G1); auto.
  - apply Hs. unfold larger_ratio. apply (larger_inf_weak (nltb X) (fun k => nabs X (fdiv (nfd X) (get ar k) (get be k))) (fun k => nltb X (nabs X (get be k)) tiny)). apply laws_weak. exact Hl.
Qed.

Theorem C68_general_nu :
  forall X gv ggev sort tiny inside n Ai Bi up A B sy nu, gen_inputs X ggev sort inside n Ai Bi A B ->
    sy <> SyS -> sy <> SyH -> nu <= n -> nltb X (c0 _) (copp _ (c1 _)) = false ->
    exists ar be v ks Z, geneo_with_nu X gv ggev sort tiny inside n Ai Bi sy up nu = Some Z /\
      (forall k, k < n -> eigenvector n (weighted inside A) B (ar k) (be k) (v k)) /\
      leading (larger_ratio X tiny ar be) n ks /\ length ks = nu /\ coarse_columns n inside v ks Z.
Proof.
  intros X gv ggev sort tiny inside n Ai Bi up A B sy nu H N1 N2 Hnu Hm1.
  destruct (gen_facts X ggev sort tiny inside n Ai Bi A B H) as (D & ar & ai & be & v & E1 & E2 & E3 & E4 & E5 & E6). cbv zeta in E5, E6.
  set (index := sort _ _) in *. assert (Li : length index = n) by (rewrite (Permutation_length E5); apply seq_length).
  destruct (vectors_ok _ n inside nu (mkMat n n v) index E5 Hnu (gi_in _ _ _ _ _ _ _ _ _ H) eq_refl E3) as (Z & F1 & F2).
  assert (Lf : length (firstn nu index) = nu) by (rewrite firstn_length; lia).
  exists (get ar), (get be), (column n v), (firstn nu index), Z. split; [|split; [exact E4|split; [apply firstn_leading; assumption|split; [exact Lf|]]]].
  - unfold geneo_with_nu, geneo. rewrite E1. unfold build_coarse_space. rewrite Hm1. destruct sy; try congruence; rewrite E2; exact F1.
  - apply (nu_held X n inside nu); assumption.
Qed.
Print Assumptions C68_general_nu.

Theorem C68_general_threshold :
  forall X gv ggev sort tiny inside n Ai Bi up A B sy thr, gen_inputs X ggev sort inside n Ai Bi A B ->
    sy <> SyS -> sy <> SyH -> nltb X (c0 _) thr = true ->
    (forall D ar ai be v, build_daid _ inside n Ai = Some D -> ggev n (md D) (md Bi) = Some (ar, ai, be, v) ->
      exists k, k < n /\ nltb X (nabs X (get be k)) tiny = false /\ nltb X thr (nabs X (fdiv (nfd X) (get ar k) (get be k))) = false) ->
    exists ar be v ks Z, geneo_with_threshold X gv ggev sort tiny inside n Ai Bi sy up thr = Some Z /\
      (forall k, k < n -> eigenvector n (weighted inside A) B (ar k) (be k) (v k)) /\
      leading (larger_ratio X tiny ar be) n ks /\
      (forall k, k < n -> In k ks <-> nltb X (nabs X (be k)) tiny = true \/ nltb X thr (nabs X (fdiv (nfd X) (ar k) (be k))) = true) /\ coarse_columns n inside v ks Z.
Proof.
  intros X gv ggev sort tiny inside n Ai Bi up A B sy thr H N1 N2 Hthr Hone.
  destruct (gen_facts X ggev sort tiny inside n Ai Bi A B H) as (D & ar & ai & be & v & E1 & E2 & E3 & E4 & E5 & E6). cbv zeta in E5, E6.
  destruct (Hone D ar ai be v E1 E2) as (k0 & Hk0 & Hi0 & Hv0).
  set (index := sort _ _) in *. assert (Li : length index = n) by (rewrite (Permutation_length E5); apply seq_length).
  destruct (C41_threshold_general _ _ (fun a b => nltb X b a) thr (fun k => nabs X (fdiv (nfd X) (get ar k) (get be k))) (fun k => nltb X (nabs X (get be k)) tiny) n inside (mkMat n n v) index) as (m & Z & F1 & F2 & F3).
  { destruct (laws_weak X (gi_laws _ _ _ _ _ _ _ _ _ H)) as [L1 L2 L3]. split; [exact L1| |intros a b Q; apply L3; exact Q].
    intros a b c Q. destruct (L2 _ b _ Q); auto. }
  { exact E5. } { exact E6. } { apply (gi_in _ _ _ _ _ _ _ _ _ H). } { reflexivity. } { exact E3. }
  { exists k0. auto. }
  exists (get ar), (get be), (column n v), (firstn m index), Z. split; [|split; [exact E4|split; [apply firstn_leading; assumption|split; [exact F3|]]]].
  - unfold geneo_with_threshold, geneo. rewrite E1. unfold build_coarse_space. rewrite Hthr. destruct sy; try congruence; rewrite E2; exact F1.
  - apply (nu_held X n inside m); [exact E5| |exact F2].
    assert (m <= n).
    { destruct (le_lt_dec m n) as [L|L]; [exact L|exfalso].
      assert (Q : In k0 (firstn m index)) by (rewrite firstn_all2 by lia; apply (Permutation_in _ (Permutation_sym E5)); apply in_seq; lia).
      apply F3 in Q; [|exact Hk0]. cbn beta in Q. destruct Q; congruence. }
    rewrite firstn_length. lia.
Qed.
Print Assumptions C68_general_threshold.

(** *** Examples over the rational numbers: 2 points inside, 1 in the overlap, A = [17 -12; -12 10] (eigenvalues 1 and 26), B = I. *)
  Definition ge_qz (a : Z) : Qc := Q2Qc (QArith_base.inject_Z a).
  Definition ge_fifth (a : Z) : Qc := (ge_qz a / ge_qz 5)%Qc.
  Definition ge_gA : mat Qcc := @mkMat Qcc 2 2 (map ge_qz [17; -12; -12; 10]%Z).
  Definition ge_gB : mat Qcc := @mkMat Qcc 3 3 (map ge_qz [1; 0; 0; 0; 1; 0; 0; 0; 1]%Z).
  Definition ge_gw : list Qc := map ge_qz [1; 26; 0]%Z.
  Definition ge_gvec : list Qc := map ge_fifth [3; 4; 0; -4; 3; 0; 0; 0; 5]%Z.
  Definition ge_gv_ex (u : uplo) (n : nat) (a b : list Qc) : option (list Qc * list Qc) := Some (ge_gw, ge_gvec).
  Definition ge_ggev_ex (n : nat) (a b : list Qc) : option (list Qc * list Qc * list Qc * list Qc) := Some (ge_gw, map ge_qz [0; 0; 0]%Z, map ge_qz [1; 1; 1]%Z, ge_gvec).

  Lemma ge_Q_laws : abs_laws Qn.
  Proof.
    split; cbn; unfold Qc_ltb, Qc_abs.
    - intros a b H. destruct (Qclt_le_dec a b) as [L|L]; [|discriminate]. destruct (Qclt_le_dec b a) as [M|M]; [|reflexivity]. exfalso. exact (Qclt_not_le _ _ L (Qclt_le_weak _ _ M)).
    - intros a b c H. destruct (Qclt_le_dec a c) as [L|L]; [|discriminate]. destruct (Qclt_le_dec a b) as [M|M]; [left; reflexivity|right].
      destruct (Qclt_le_dec b c) as [N|N]; [reflexivity|exfalso]. exact (Qclt_not_le _ _ L (Qcle_trans _ _ _ N M)).
    - intros x. destruct (Qclt_le_dec x 0) as [L|L].
      + destruct (Qclt_le_dec (- x) 0) as [M|M]; [|reflexivity]. exfalso. apply Qclt_le_weak in M. apply Qcopp_le_compat in M. rewrite Qcopp_involutive in M. exact (Qclt_not_le _ _ L M).
      + destruct (Qclt_le_dec x 0) as [M|M]; [|reflexivity]. exfalso. exact (Qclt_not_le _ _ M L).
  Qed.
  (** Insertion sort. *)
  Fixpoint ge_ins (comp : nat -> nat -> bool) (a : nat) (l : list nat) : list nat :=
    match l with [] => [a] | b :: r => if comp b a then b :: ge_ins comp a r else a :: l end.
  Definition ge_sort_ex (comp : nat -> nat -> bool) (l : list nat) : list nat := fold_right (ge_ins comp) [] l.
  Lemma ge_ins_perm : forall (comp : nat -> nat -> bool) (a : nat) (l : list nat), Permutation (ge_ins comp a l) (a :: l).
  Proof. intros comp a l. induction l as [|b r IH]; cbn; [reflexivity|]. destruct (comp b a); [|reflexivity]. rewrite IH. apply perm_swap. Qed.
  Lemma ge_sorted_cons : forall (comp : nat -> nat -> bool) (a : nat) (l : list nat), (forall b, In b l -> comp b a = false) -> sorted_by comp l -> sorted_by comp (a :: l).
  Proof.
    intros comp a l H1 H2 i j x y Hij Ei Ej. destruct j as [|j]; [lia|]. destruct i as [|i]; cbn in Ei, Ej; [injection Ei as <-; apply H1; exact (nth_error_In _ _ Ej)|].
    apply (H2 i j); [lia|assumption|assumption].
  Qed.
  Lemma ge_sorted_tail : forall (comp : nat -> nat -> bool) (a : nat) (l : list nat), sorted_by comp (a :: l) -> (forall b, In b l -> comp b a = false) /\ sorted_by comp l.
  Proof.
    intros comp a l H. split.
    - intros b Hb. apply In_nth_error in Hb. destruct Hb as (j & Ej). apply (H 0 (S j)); [lia|reflexivity|exact Ej].
    - intros i j x y Hij Ei Ej. apply (H (S i) (S j)); [lia|assumption|assumption].
  Qed.
  Lemma ge_ins_sorted : forall (comp : nat -> nat -> bool) (a : nat) (l : list nat), strict_weak comp -> sorted_by comp l -> sorted_by comp (ge_ins comp a l).
  Proof.
    intros comp a l [W1 W2 W3]. induction l as [|b r IH]; intros H.
    - apply ge_sorted_cons; [intros b []|exact H].
    - cbn [ge_ins]. destruct (ge_sorted_tail _ _ _ H) as [H1 H2]. destruct (comp b a) eqn:E.
      + apply ge_sorted_cons; [|apply IH; exact H2]. intros c Hc. apply (Permutation_in _ (ge_ins_perm comp a r)) in Hc. destruct Hc as [<-|Hc]; [apply W3; exact E|apply H1; exact Hc].
      + apply ge_sorted_cons; [|exact H]. intros c [<-|Hc]; [exact E|]. destruct (comp c a) eqn:Ec; [|reflexivity]. destruct (W2 c b a Ec) as [Q|Q]; [rewrite (H1 c Hc) in Q; discriminate|congruence].
  Qed.
  Lemma ge_sort_ex_rule : sort_rule ge_sort_ex.
  Proof.
    intros comp l Hw. unfold ge_sort_ex. induction l as [|a l [IH1 IH2]]; [split; [reflexivity|intros i j x y _ Q; destruct i; discriminate]|].
    cbn [fold_right]. split; [rewrite ge_ins_perm; apply perm_skip; exact IH1|apply ge_ins_sorted; assumption].
  Qed.

  (** Equalities for all the indices below 3, by computation. *)
  Definition ge_check1 (f g : nat -> Qc) : bool := forallb (fun i => Qc_eq_bool (f i) (g i)) (seq 0 3).
  Definition ge_check2 (f g : nat -> nat -> Qc) : bool := forallb (fun k => ge_check1 (f k) (g k)) (seq 0 3).
  Lemma ge_check1_ok : forall f g, ge_check1 f g = true -> forall i, i < 3 -> f i = g i.
  Proof. intros f g H i Hi. unfold ge_check1 in H. rewrite forallb_forall in H. apply Qc_eq_bool_correct, H, in_seq. lia. Qed.
  Lemma ge_check2_ok : forall f g, ge_check2 f g = true -> forall k i, k < 3 -> i < 3 -> f k i = g k i.
  Proof. intros f g H k i Hk Hi. unfold ge_check2 in H. rewrite forallb_forall in H. apply ge_check1_ok; [|exact Hi]. apply H, in_seq. lia. Qed.
  Lemma ge_not_eqb : forall x y : Qc, Qc_eq_bool x y = false -> x <> y.
  Proof. intros x y H E. unfold Qc_eq_bool in H. destruct (Qc_eq_dec x y); [discriminate|contradiction]. Qed.

  Definition ge_wA := weighted (X := Qn) 2 (me ge_gA).
  Lemma ge_gvec_nonzero : forall k, k < 3 -> nonzero (X := Qn) 3 (column (X := Qn) 3 ge_gvec k).
  Proof. intros k Hk. exists k. split; [exact Hk|]. apply (ge_not_eqb _ (ge_qz 0)). destruct k as [|[|[|k]]]; [vm_compute; reflexivity..|lia]. Qed.
  Lemma ge_gvec_eigen : forall k, k < 3 -> eigenvector (X := Qn) 3 ge_wA (me ge_gB) (get (K := Qcc) ge_gw k) (c1 Qcc) (column (X := Qn) 3 ge_gvec k).
  Proof.
    intros k Hk. split; [apply ge_gvec_nonzero; exact Hk|]. intros i Hi.
    refine (ge_check2_ok (fun k i => cmul Qcc (c1 Qcc) (product (X := Qn) 3 ge_wA (column (X := Qn) 3 ge_gvec k) i)) (fun k i => cmul Qcc (get (K := Qcc) ge_gw k) (product (X := Qn) 3 (me ge_gB) (column (X := Qn) 3 ge_gvec k) i)) _ k i Hk Hi).
    vm_compute. reflexivity.
  Qed.
  Example ex_sym_inputs : forall up, up <> UpN -> sym_inputs Qn ge_gv_ex ge_sort_ex 2 3 ge_gA ge_gB up (me ge_gA) (me ge_gB).
  Proof.
    intros up Hup. split.
    - exact ge_Q_laws.
    - intros a _. exists ge_gw, ge_gvec. split; [reflexivity|]. split; [reflexivity|]. split; [reflexivity|]. split; [exact ge_gvec_eigen|].
      intros k l Hk Hl. refine (ge_check2_ok (fun k l => inner (X := Qn) 3 (me ge_gB) (column (X := Qn) 3 ge_gvec k) (column (X := Qn) 3 ge_gvec l)) (fun k l => if k =? l then c1 Qcc else c0 Qcc) _ k l Hk Hl).
      vm_compute. reflexivity.
    - exact ge_sort_ex_rule.
    - lia.
    - exists 2. split; [right; reflexivity|]. split; [repeat split|]. reflexivity.
    - intros i j Hi Hj. destruct i as [|[|i]], j as [|[|j]]; try lia; reflexivity.
    - intros i j Hi Hj. destruct i as [|[|[|i]]], j as [|[|[|j]]]; try lia; reflexivity.
  Qed.
  Example ex_gen_inputs : gen_inputs Qn ge_ggev_ex ge_sort_ex 2 3 ge_gA ge_gB (me ge_gA) (me ge_gB).
  Proof.
    split.
    - exact ge_Q_laws.
    - intros a _. exists ge_gw, (map ge_qz [0; 0; 0]%Z), (map ge_qz [1; 1; 1]%Z), ge_gvec. split; [reflexivity|]. split; [reflexivity|]. split; [reflexivity|]. split; [reflexivity|].
      intros k Hk _. destruct (ge_gvec_eigen k Hk) as [H1 H2]. split; [exact H1|]. intros i Hi. refine (eq_trans _ (H2 i Hi)).
      apply (f_equal (fun z => cmul Qcc z (product (X := Qn) 3 ge_wA (column (X := Qn) 3 ge_gvec k) i))). destruct k as [|[|[|k]]]; [reflexivity..|lia].
    - intros a ar ai be v _ E. injection E as <- <- <- <-. right. intros k Hk. destruct k as [|[|[|k]]]; [reflexivity..|lia].
    - exact ge_sort_ex_rule.
    - lia.
    - exists 2. split; [right; reflexivity|]. split; [repeat split|]. reflexivity.
  Qed.
  (** Threshold 2: the vector of the eigenvalue 26; nu = 2: the vectors of 26 and 1. *)
  Definition ge_same (l l' : list Qc) : bool := forallb (fun p => Qc_eq_bool (fst p) (snd p)) (combine l l') && (length l =? length l').
  Example ex_geneo :
    match geneo_with_threshold Qn ge_gv_ex ge_ggev_ex ge_sort_ex (ge_fifth 0) 2 3 ge_gA ge_gB SyS UpL (ge_qz 2) with Some Z => (mc Z =? 1) && ge_same (md Z) (map ge_fifth [-4; 3; 0]%Z) | None => false end &&
    match geneo_with_nu Qn ge_gv_ex ge_ggev_ex ge_sort_ex (ge_fifth 0) 2 3 ge_gA ge_gB SyN UpN 2 with Some Z => (mc Z =? 2) && ge_same (md Z) (map ge_fifth [-4; 3; 0; 3; 4; 0]%Z) | None => false end = true.
  Proof. vm_compute. reflexivity. Qed.
  Example ex_minus_one : nltb Qn (c0 Qcc) (copp Qcc (c1 Qcc)) = false /\ nltb Qn (c0 Qcc) (ge_qz 2) = true /\ nabs Qn (c0 Qcc) = c0 Qcc.
  Proof. split; [vm_compute; reflexivity|]. split; vm_compute; reflexivity. Qed.

  (** *** Real coefficients, complex eigenvalues: alphai is ignored. *)
  Definition ge_rotA : mat Qcc := @mkMat Qcc 2 2 (map ge_qz [0; 1; -1; 0]%Z).
  (** A v = i v and A v' = -i v' with v = e1 - i e2: ggev returns the real and imaginary parts in the columns 0 and 1. *)
  Definition ge_ggev_rot (n : nat) (a b : list Qc) : option (list Qc * list Qc * list Qc * list Qc) :=
    Some (map ge_qz [0; 0; 0]%Z, map ge_qz [1; -1; 0]%Z, map ge_qz [1; 1; 1]%Z, map ge_qz [1; 0; 0; 0; -1; 0; 0; 0; 1]%Z).

(** A pencil with the eigenvalues i, -i and 0: with the threshold 1/2 the coarse space is empty, although |i| = |-i| = 1.  ge_ggev_rot meets the
    specification, and x + i y (columns 0 and 1) is the eigenvector of i: A x = - y and A y = x. *)
Theorem C68_complex_eigenvalues_refuted :
  let A := weighted (X := Qn) 2 (me ge_rotA) in
  ggev_answers (X := Qn) ge_ggev_rot 3 (md ge_gB) A (me ge_gB) /\
  (exists x y, (forall i, i < 3 -> product (X := Qn) 3 A x i = Qcopp (product (X := Qn) 3 (me ge_gB) y i) /\ product (X := Qn) 3 A y i = product (X := Qn) 3 (me ge_gB) x i) /\ nonzero (X := Qn) 3 x) /\
  match geneo_with_threshold Qn ge_gv_ex ge_ggev_rot ge_sort_ex (ge_fifth 0) 2 3 ge_rotA ge_gB SyN UpN (ge_fifth 2) with Some Z => mc Z = 0 | None => False end.
Proof.
  cbv zeta. split; [|split].
  - intros a _. do 4 eexists. split; [reflexivity|]. split; [reflexivity|]. split; [reflexivity|]. split; [reflexivity|]. intros k Hk [Q|Q]; [discriminate Q|].
    assert (k = 2) as ->.
    { destruct k as [|[|[|k]]]; [exfalso; revert Q; apply ge_not_eqb; vm_compute; reflexivity|exfalso; revert Q; apply ge_not_eqb; vm_compute; reflexivity|reflexivity|lia]. }
    split; [exists 2; split; [lia|apply ge_not_eqb; vm_compute; reflexivity]|]. intros i Hi.
    apply Qc_eq_bool_correct. destruct i as [|[|[|i]]]; [vm_compute; reflexivity..|lia].
  - exists (fun i => if i =? 0 then ge_qz 1 else ge_qz 0), (fun i => if i =? 1 then ge_qz (-1) else ge_qz 0). split.
    + intros i Hi. split; apply Qc_eq_bool_correct; (destruct i as [|[|[|i]]]; [vm_compute; reflexivity..|lia]).
    + exists 0. split; [lia|]. apply ge_not_eqb. vm_compute. reflexivity.
  - vm_compute. reflexivity.
Qed.
Print Assumptions C68_complex_eigenvalues_refuted.

(** A local matrix of another size is silently replaced by zero. *)
Theorem C68_other_size_refuted :
  forall K inside n (Ai : mat K), mc Ai <> n -> mc Ai <> inside -> build_daid K inside n Ai = Some (mkMat n n (repeat (c0 K) (n * n))).
Proof. intros K inside n Ai H1 H2. unfold build_daid. apply Nat.eqb_neq in H1, H2. rewrite H1, H2. reflexivity. Qed.
Print Assumptions C68_other_size_refuted.

(** Without overlap the diagonal block is copied in the user numbering, not in the local numbering (that of the tree): on one process with the
    points 0, 1 exchanged by the permutation of the tree, entry (0,0) should be the one of the point 1. *)
Theorem C68_no_overlap_refuted :
  let perm := fun i => 1 - i in
  let gen := fun i j => ge_qz (10 * Z.of_nat i + Z.of_nat j) in
  let A := one_leaf (K := Qcc) SyN (DDense (of_fun Qcc 2 2 (fun i j => gen (perm i) (perm j)))) 2 in
  starts_with_cluster perm 0 2 [1; 0] /\
  match geneo_dense Qn perm 2 2 A with
  | Some Ai => ge_same (md Ai) (md (of_fun Qcc 2 2 gen)) && negb (ge_same (md Ai) (md (of_fun Qcc 2 2 (fun i j => gen (nth i [1; 0] 0) (nth j [1; 0] 0)))))
  | None => false
  end = true.
Proof. cbv zeta. split; [reflexivity|]. vm_compute. reflexivity. Qed.
Print Assumptions C68_no_overlap_refuted.
