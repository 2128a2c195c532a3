(** * Property C66: the local matrices of the domain decomposition solvers.

    Vocabulary: OvrSpec.v ([restriction], [lower], [everywhere], [starts_with_cluster]); [hbuild] is HMatrixTreeBuilder::build; [sub] is
    get_sub_hmatrix; OvrModel.v follows DDMSolverWithDenseLocalSolver. *)

From Coq Require Import List Arith ZArith Bool Lia Permutation.
From Verif Require Import ClusterModel ClusterSpec ClusterProofs ClusterFinal ClusterDepth IOModel IOSpec IOProofs BlockModel BlockSpec BlockProofs
  BlockFinal BlockSym BlockLink P_Cluster P_Block Algebra BlasModel BlasProofs HMatModel HMatSpec HMatTop HMatBuild P_HMat DiagSpec P_Diag DistModel DistProofs
  ArithModel SolverModel SolverSpec P_Solver SubSpec SubProofs P_Sub OvrModel OvrSpec OvrProofs.
Import ListNotations.

(** The order of LocalNumberingBuilder (C39): if [clu] lists the points of the cluster of the process, in the order of the permutation,
    the numbering starts with them. *)
Theorem C66_numbering :
  forall perm off m ovr clu inter,
    NoDup clu -> (forall k, In k clu -> k < length ovr) -> (forall l k, In l inter -> In k l -> k < length ovr) ->
    map (fun k => nth k ovr 0) clu = map perm (seq off m) ->
    exists l2g inter', local_numbering ovr clu inter = Some (l2g, inter') /\ starts_with_cluster perm off m l2g /\ length l2g = length ovr /\ m <= length l2g.
Proof.
  intros perm off m ovr clu inter H1 H2 H3 H4.
  destruct (C39_local_numbering ovr clu inter H1 H2 H3) as (l2g & inter' & E1 & E2 & E3 & _).
  assert (Lc : length clu = m) by (rewrite <- (map_length (fun k => nth k ovr 0) clu), H4, map_length, seq_length; reflexivity).
  assert (E : l2g = map perm (seq off m) ++ map (fun k => nth k ovr 0) (others clu (length ovr))) by (rewrite E2, map_app, H4; reflexivity).
  exists l2g, inter'. split; [exact E1|]. split; [|split; [apply Permutation_length, E3|]].
  - unfold starts_with_cluster. rewrite E, firstn_app, map_length, seq_length, Nat.sub_diag, firstn_O, app_nil_r. apply firstn_all2. rewrite map_length, seq_length. lia.
  - rewrite E, app_length, map_length, seq_length. lia.
Qed.
Print Assumptions C66_numbering.

Lemma start_nth : forall perm off m l2g i, starts_with_cluster perm off m l2g -> i < m -> nth i l2g 0 = perm (off + i).
Proof.
  intros perm off m l2g i H Hi. rewrite <- (nth_firstn l2g m i Hi). unfold starts_with_cluster in H. rewrite H.
  rewrite (nth_indep _ 0 (perm 0)) by (rewrite map_length, seq_length; exact Hi). rewrite map_nth, seq_nth by exact Hi. reflexivity.
Qed.

(** C66.  Without symmetry: the diagonal block of the process exists and the assembled matrix is the restriction of the global matrix to
    the points of the subdomain, exactly outside the diagonal block. *)
Theorem C66_adding_overlap :
  forall K B gen perm compress T fuel A p u l2g,
    bb_uplo B = UpN -> bb_cons B = true -> partitioned T (bb_tparts B) -> partitioned T (bb_sparts B) -> nonempty T ->
    (forall w, In w (ct_nodes T) -> depth_ok w) -> compress_ok K compress -> positive_rank K compress ->
    bb_tpart B = Some p \/ bb_tpart B = None -> process_clusters B T T p u u ->
    starts_with_cluster perm (c_off u) (c_size u) l2g -> c_size u <= length l2g ->
    let g := fun i j => gen (perm i) (perm j) in
    hbuild K SyN B g compress fuel T T = Some A ->
    exists D M, sub K A u u = Some D /\ adding_overlap K gen l2g false D = Some M /\
      restriction eq (fun i j => c_size u <= i \/ c_size u <= j) gen l2g M /\
      forall P : car K -> car K -> Prop, (forall c, P c c) -> compress_within K g compress P -> restriction P everywhere gen l2g M.
Proof.
  intros K B gen perm compress T fuel A p u l2g HN HC HT HS NT DT Hco Hrk Hp HP Hst Hm g HA.
  destruct (diagonal_found K SyN B g compress T T fuel A p u u HC HT HS NT NT DT DT Hp HP) as (D & f & E1 & E2 & E3 & E4 & E5); [|exact HA|].
  { intros k l _ _ _ _. unfold removed. rewrite HN. reflexivity. }
  assert (HV : part_valid B u). { unfold part_valid. destruct Hp as [->| ->]; [|exact I]. rewrite (pc_t _ _ _ _ _ _ HP). left. reflexivity. }
  pose proof (partitioned_sub T _ u HT (pc_ut _ _ _ _ _ _ HP)) as HTu. pose proof (partitioned_sub T _ u HS (pc_vs _ _ _ _ _ _ HP)) as HSu. pose proof (nonempty_sub T u NT (pc_ut _ _ _ _ _ _ HP)) as NTu.
  destruct (nosym_dense K SyN B g compress Hrk eq (fun c => eq_refl) u f D eq_refl HN HTu HSu NTu HV Hco E5 E3 E4) as (b & F1 & F2 & _).
  destruct (adding_overlap_ok K gen l2g false D b) as (M & G1 & G2 & G3 & G4 & _); [rewrite E3; exact Hm|rewrite E3; exact F1|rewrite E3; exact F2|].
  rewrite E3 in *. exists D, M. split; [exact E1|]. split; [exact G1|]. split.
  - split; [exact G2|]. intros i j Hi Hj [Q|Q]; apply G4; auto.
  - intros P Pr Hw. split; [exact G2|]. intros i j Hi Hj _.
    destruct (nosym_dense K SyN B g compress Hrk P Pr u f D eq_refl HN HTu HSu NTu HV Hco E5 E3 E4) as (b' & F1' & _ & F3).
    rewrite F1 in F1'. injection F1' as <-.
    destruct (Nat.lt_ge_cases i (c_size u)) as [Q|Q]; [destruct (Nat.lt_ge_cases j (c_size u)) as [Q'|Q']|].
    + rewrite G3 by assumption. rewrite !(start_nth perm (c_off u) (c_size u)) by assumption. apply F3; assumption.
    + rewrite G4 by auto. apply Pr.
    + rewrite G4 by auto. apply Pr.
Qed.
Print Assumptions C66_adding_overlap.

(** With symmetry, UPLO 'L': the lower triangle (the one that the symmetric local solver reads). *)
Theorem C66_adding_overlap_symmetric :
  forall K sy B gen perm compress T fuel A p u l2g,
    (sy = SyS \/ sy = SyH) -> (forall i j, gen j i = flip sy (gen i j)) ->
    bb_uplo B = UpL -> bb_cons B = true -> partitioned T (bb_tparts B) -> bb_sparts B = bb_tparts B -> nonempty T ->
    (forall w, In w (ct_nodes T) -> depth_ok w) -> compress_ok K compress -> positive_rank K compress ->
    (bb_tpart B = Some p /\ bb_qpart B = Some p) \/ (bb_tpart B = None /\ bb_qpart B = None) -> process_clusters B T T p u u ->
    starts_with_cluster perm (c_off u) (c_size u) l2g -> c_size u <= length l2g ->
    let g := fun i j => gen (perm i) (perm j) in
    hbuild K sy B g compress fuel T T = Some A ->
    exists D M, sub K A u u = Some D /\ adding_overlap K gen l2g true D = Some M /\
      restriction eq (fun i j => c_size u <= i) gen l2g M /\
      forall P : car K -> car K -> Prop, (forall c, P c c) -> (forall a b, P a b -> P (flip sy a) (flip sy b)) -> compress_within K g compress P ->
        restriction P lower gen l2g M.
Proof.
  intros K sy B gen perm compress T fuel A p u l2g Hsy Hg HL HC HT HS NT DT Hco Hrk Hp HP Hst Hm g HA. pose proof (pc_ut _ _ _ _ _ _ HP) as Hu. pose proof (pc_t _ _ _ _ _ _ HP) as Ht.
  destruct (diagonal_found K sy B g compress T T fuel A p u u HC HT) as (D & f & E1 & E2 & E3 & E4 & E5); auto.
  { rewrite HS. exact HT. }
  { destruct Hp as [[Q _]|[Q _]]; auto. }
  { intros k l Nk Nl Uk Ul.
    assert (Ik := nodes_inside k (fun x Hx => pt_node _ _ HT x (nodes_trans T k x Nk Hx)) u Uk).
    assert (Il := nodes_inside l (fun x Hx => pt_node _ _ HT x (nodes_trans T l x Nl Hx)) u Ul).
    pose proof (NT u Hu) as Z. fold (c_size u) in Z. unfold removed. rewrite HL.
    replace (c_off k + c_size k <=? c_off l) with false by (symmetry; apply Nat.leb_gt; lia). reflexivity. }
  assert (HR : (bb_tpart B = None /\ bb_qpart B = None) \/ (exists q, bb_tpart B = Some q /\ bb_qpart B = Some q /\ nth_error (bb_tparts B) q = Some u)).
  { destruct Hp as [[Q1 Q2]|Q]; [right; exists p; auto|left; exact Q]. }
  assert (Hg' : forall i j, g j i = flip sy (g i j)) by (intros i j; apply Hg).
  pose proof (partitioned_sub T _ u HT Hu) as HTu. pose proof (nonempty_sub T u NT Hu) as NTu.
  destruct (sym_dense_lower K sy B g compress Hrk (fun _ _ => True) (fun c => I) u f D Hsy Hg' HL HTu HS NTu HC HR Hco (fun _ _ _ => I) E5) as (b & F1 & F2 & _).
  destruct (adding_overlap_ok K gen l2g true D b) as (M & G1 & G2 & G3 & G4 & _); [rewrite E3; exact Hm|rewrite E3; exact F1|rewrite E3; exact F2|].
  rewrite E3 in *. exists D, M. split; [exact E1|]. split; [exact G1|]. split.
  - split; [exact G2|]. intros i j Hi Hj Q; apply G4; auto.
  - intros P Pr Pf Hw. split; [exact G2|]. intros i j Hi Hj Lo. unfold lower in Lo.
    destruct (sym_dense_lower K sy B g compress Hrk P Pr u f D Hsy Hg' HL HTu HS NTu HC HR Hco Pf E5) as (b' & F1' & _ & F3).
    rewrite F1 in F1'. injection F1' as <-.
    destruct (Nat.lt_ge_cases i (c_size u)) as [Q|Q].
    + rewrite G3 by lia. rewrite !(start_nth perm (c_off u) (c_size u)) by (try assumption; lia). apply F3; [assumption|assumption|lia].
    + rewrite G4 by auto. apply Pr.
Qed.
Print Assumptions C66_adding_overlap_symmetric.

(** Block Jacobi: the matrix of the diagonal block (all of it without symmetry, the lower triangle with symmetry and UPLO 'L'). *)
Theorem C66_without_overlap :
  forall K sy B gen perm compress u f D,
    (sy = SyN /\ bb_uplo B = UpN /\ partitioned u (bb_sparts B)) \/
    ((sy = SyS \/ sy = SyH) /\ (forall i j, gen j i = flip sy (gen i j)) /\ bb_uplo B = UpL /\ bb_sparts B = bb_tparts B) ->
    bb_cons B = true -> partitioned u (bb_tparts B) -> nonempty u -> compress_ok K compress -> positive_rank K compress ->
    (bb_tpart B = None /\ bb_qpart B = None) \/ (exists q, bb_tpart B = Some q /\ bb_qpart B = Some q /\ nth_error (bb_tparts B) q = Some u) ->
    let g := fun i j => gen (perm i) (perm j) in
    hbuild K sy B g compress f u u = Some D -> h_t (rt_val D) = u -> h_s (rt_val D) = u ->
    exists M, without_overlap K D = Some M /\
      forall P : car K -> car K -> Prop, (forall c, P c c) -> (forall a b, P a b -> P (flip sy a) (flip sy b)) -> compress_within K g compress P ->
        restriction P (match sy with SyN => everywhere | _ => lower end) gen (map perm (seq (c_off u) (c_size u))) M.
Proof.
  intros K sy B gen perm compress u f D Hc HC HT NT Hco Hrk HR g HD Et Es.
  assert (HV : part_valid B u). { unfold part_valid. destruct HR as [[-> _]|(q & -> & _ & ->)]; [exact I|left; reflexivity]. }
  assert (Hg' : (forall i j, gen j i = flip sy (gen i j)) -> forall i j, g j i = flip sy (g i j)) by (intros Q i j; apply Q).
  assert (N : forall i, i < c_size u -> nth i (map perm (seq (c_off u) (c_size u))) 0 = perm (c_off u + i)).
  { intros i Hi. rewrite (nth_indep _ 0 (perm 0)) by (rewrite map_length, seq_length; exact Hi). rewrite map_nth, seq_nth by exact Hi. reflexivity. }
  unfold without_overlap. rewrite Et, Es. unfold restriction. rewrite map_length, seq_length.
  destruct Hc as [(-> & HN & HS)|(Hsy & Hg & HL & HS)].
  - destruct (nosym_dense K SyN B g compress Hrk eq (fun c => eq_refl) u f D eq_refl HN HT HS NT HV Hco HD Et Es) as (b & F1 & F2 & _). rewrite F1.
    exists (mkMat (c_size u) (c_size u) b). split; [reflexivity|]. intros P Pr _ Hw. split; [split; [reflexivity|split; [reflexivity|exact F2]]|].
    destruct (nosym_dense K SyN B g compress Hrk P Pr u f D eq_refl HN HT HS NT HV Hco HD Et Es) as (b' & F1' & _ & F3). rewrite F1 in F1'. injection F1' as <-.
    intros i j Hi Hj _. rewrite !N by assumption. apply F3; assumption.
  - destruct (sym_dense_lower K sy B g compress Hrk (fun _ _ => True) (fun c => I) u f D Hsy (Hg' Hg) HL HT HS NT HC HR Hco (fun _ _ _ => I) HD) as (b & F1 & F2 & _). rewrite F1.
    exists (mkMat (c_size u) (c_size u) b). split; [reflexivity|]. intros P Pr Pf Hw. split; [split; [reflexivity|split; [reflexivity|exact F2]]|].
    destruct (sym_dense_lower K sy B g compress Hrk P Pr u f D Hsy (Hg' Hg) HL HT HS NT HC HR Hco Pf HD) as (b' & F1' & _ & F3). rewrite F1 in F1'. injection F1' as <-.
    intros i j Hi Hj Lo. rewrite !N by assumption. apply F3; [exact Hw|exact Hi|].
    destruct Hsy as [->| ->]; exact Lo.
Qed.
Print Assumptions C66_without_overlap.

(** ** A local hierarchical matrix with the overlap *)

(** The letters that the constructor of HMatrixTreeBuilder accepts. *)
Definition letters_ok (K : Coef) (sy : symc) (u : uplo) : Prop :=
  (sy = SyN /\ u = UpN) \/ (sy = SyS /\ u <> UpN) \/ (sy = SyH /\ u <> UpN /\ cplx K = true).

(** The hierarchical matrix: the restriction of the global matrix, in the numbering of the local cluster tree. *)
Theorem C66_local_hmatrix :
  forall K gen l2g tp sy u adm compress fuel T parts A,
    letters_ok K sy u -> (sy = SyN \/ forall i j, gen j i = flip sy (gen i j)) ->
    partitioned T parts -> nonempty T -> compress_ok K compress ->
    local_hmatrix K gen l2g tp sy u adm compress fuel T parts = Some A ->
    let g := fun i j => gen (nth (tp i) l2g 0) (nth (tp j) l2g 0) in
    h_t (rt_val A) = T /\ h_s (rt_val A) = T /\
    exists L Y, hleaves K A = Some (L, Y) /\ well_formed (rt_val A) L Y sy /\ data_on_leaves A /\
      (positive_rank K compress -> forall h, In h L -> dense_ready K h) /\
      forall P : car K -> car K -> Prop, (forall c, P c c) -> (forall a b, P a b -> P (flip sy a) (flip sy b)) -> compress_within K g compress P ->
        forall i j, in_iv i (interval T) = true -> in_iv j (interval T) = true -> P (value L Y sy i j) (g i j).
Proof.
  intros K gen l2g tp sy u adm compress fuel T parts A Hl Hg HT NT Hco HA g. unfold local_hmatrix in HA.
  change (fun i j => local_generator K gen l2g (tp i) (tp j)) with g in HA.
  assert (Hsy : (sy = SyN /\ u = UpN) \/ ((sy = SyS \/ sy = SyH) /\ u <> UpN)) by (destruct Hl as [Q|[Q|Q]]; tauto).
  destruct Hsy as [[-> ->]|[Hsy Hu]].
  - destruct (C18_built_matrices K (local_builder adm UpN parts) g compress T T fuel A eq_refl HT HT NT NT I Hco HA) as (L & F1 & F2 & F3 & F4 & F5 & F6).
    assert (HR : h_t (rt_val A) = T /\ (positive_rank K compress -> forall h, In h L -> dense_ready K h)).
    { unfold hbuild in HA. destruct (build_root _ fuel T T) as [root|] eqn:E; [|discriminate]. injection HA as HA. subst A. split.
      - destruct (final_root_clusters (local_builder adm UpN parts) T T root (build_root_shape (local_builder adm UpN parts) T T HT HT I fuel root E)) as [_ [[_ Q]|(p & _ & Q & _)]]; [destruct root; exact Q|discriminate].
      - intros Hrk h Hh. destruct (nosym_built K SyN (local_builder adm UpN parts) g compress Hco (fun q => ltac:(discriminate)) T T fuel root eq_refl eq_refl HT HT NT NT I E) as (L' & H1 & _ & _ & _ & H5 & _).
        rewrite F1 in H1. injection H1 as <-. destruct (H5 h Hh) as (x & -> & _ & _ & Hs & _). apply hleaf_ready; [exact Hrk|left; reflexivity|exact Hs]. }
    split; [apply HR|]. split; [exact F5|]. exists L, []. split; [exact F1|]. split; [exact F2|]. split; [exact F3|]. split; [apply HR|].
    intros P Pr _ Hw i j Hi Hj. apply F6; [exact Pr|exact Hw|rewrite <- F4, (proj1 HR); exact Hi|exact Hj].
  - assert (Hg' : forall i j, gen j i = flip sy (gen i j)). { destruct Hg as [Q|Q]; [|exact Q]. destruct Hsy; congruence. }
    assert (Hgg : forall i j, g j i = flip sy (g i j)) by (intros i j; apply Hg').
    destruct (C19_built_matrices K sy (local_builder adm u parts) g compress T T fuel A Hsy Hgg Hu HT eq_refl NT eq_refl (or_introl (conj eq_refl (conj eq_refl eq_refl))) Hco HA)
      as (L & Y & F1 & F2 & F3 & F4 & F5 & F6).
    split; [exact F4|]. split; [exact F5|]. exists L, Y. split; [exact F1|]. split; [exact F2|]. split; [exact F3|]. split; [|exact F6].
    intros Hrk h Hh. unfold hbuild in HA. destruct (build_root _ fuel T T) as [root|] eqn:E; [|discriminate]. injection HA as HA. subst A.
    assert (Hgo : gen_ok K sy g). { intros Eh i. rewrite (Hgg i i) at 2. rewrite Eh. reflexivity. }
    destruct (sym_built K sy (local_builder adm u parts) g compress Hco Hgo T T fuel root Hsy Hu HT eq_refl NT eq_refl (or_introl (conj eq_refl (conj eq_refl eq_refl))) E) as (L' & Y' & H1 & _ & _ & _ & H5 & _).
    rewrite F1 in H1. injection H1 as <- <-. destruct (H5 h Hh) as (x & -> & _ & _ & Hs & _). apply hleaf_ready; [exact Hrk|right; exact Hgg|exact Hs].
Qed.
Print Assumptions C66_local_hmatrix.

(** The numbering of a tree: a permutation of 0..n-1. *)
Definition numbering (n : nat) (tp : nat -> nat) : Prop := (forall i, i < n -> tp i < n) /\ (forall i j, i < n -> j < n -> tp i = tp j -> i = j) /\ (forall a, a < n -> exists i, i < n /\ tp i = a).
Lemma permutation_numbering : forall n l, Permutation l (seq 0 n) -> numbering n (fun i => nth i l 0).
Proof.
  intros n l H. assert (Hl : length l = n) by (rewrite (Permutation_length H), seq_length; reflexivity).
  split; [|split].
  - intros i Hi. assert (In (nth i l 0) l) by (apply nth_In; lia). apply (Permutation_in _ H) in H0. apply in_seq in H0. lia.
  - intros i j Hi Hj E. assert (ND : NoDup l) by (apply (Permutation_NoDup (Permutation_sym H)), seq_NoDup). apply (proj1 (NoDup_nth l 0) ND); lia.
  - intros a Ha. assert (In a l) by (apply (Permutation_in _ (Permutation_sym H)), in_seq; lia). apply In_nth with (d := 0) in H0. destruct H0 as (i & Hi & E). exists i. split; [lia|exact E].
Qed.

Lemma with_overlap_ok : forall K gen l2g tp sy u adm compress fuel T parts A,
  letters_ok K sy u -> (sy = SyN \/ forall i j, gen j i = flip sy (gen i j)) ->
  partitioned T parts -> nonempty T -> compress_ok K compress -> positive_rank K compress ->
  interval T = (0, length l2g) -> numbering (length l2g) tp ->
  local_hmatrix K gen l2g tp sy u adm compress fuel T parts = Some A ->
  exists M, with_overlap K tp A = Some M /\
    forall P : car K -> car K -> Prop, (forall c, P c c) -> (forall a b, P a b -> P (flip sy a) (flip sy b)) ->
      compress_within K (fun i j => gen (nth (tp i) l2g 0) (nth (tp j) l2g 0)) compress P -> restriction P everywhere gen l2g M.
Proof.
  intros K gen l2g tp sy u adm compress fuel T parts A Hl Hg HT NT Hco Hrk HI (N1 & N2 & N3) HA.
  destruct (C66_local_hmatrix K gen l2g tp sy u adm compress fuel T parts A Hl Hg HT NT Hco HA) as (E1 & E2 & L & Y & F1 & F2 & _ & F4 & F5).
  assert (O : c_off T = 0 /\ c_size T = length l2g). { unfold interval in HI. injection HI as Q1 Q2. split; assumption. } destruct O as [O1 O2].
  assert (Iv : forall i, in_iv i (interval T) = true <-> i < length l2g) by (intros i; rewrite in_ivb; lia).
  destruct (C22_copy_to_dense_in_user_numbering K A L Y sy tp tp F1 F2) with (b := repeat (c0 K) (length l2g * length l2g)) as (b & B1 & B2 & B3).
  - destruct Hl as [[-> _]|[[-> _]|(-> & _ & Q)]]; cbn; [exact I|left; discriminate|split; [discriminate|exact Q]].
  - apply F4, Hrk.
  - rewrite E1. intros i. rewrite !Iv. apply N1.
  - rewrite E2. intros i. rewrite !Iv. apply N1.
  - rewrite E1. intros i j. rewrite !Iv. apply N2.
  - rewrite E2. intros i j. rewrite !Iv. apply N2.
  - reflexivity.
  - rewrite E1, E2, O2, repeat_length. lia.
  - rewrite E1, E2 in B3. unfold with_overlap. rewrite E1, O2, B1. exists (mkMat (length l2g) (length l2g) b). split; [reflexivity|].
    intros P Pr Pf Hw. split; [split; [reflexivity|split; [reflexivity|]]; cbn [md mkMat]; rewrite B2, repeat_length; reflexivity|].
    intros a c Ha Hc _. destruct (N3 a Ha) as (i & Hi & <-). destruct (N3 c Hc) as (j & Hj & <-).
    unfold me. cbn [md mr mkMat]. specialize (B3 i j). rewrite !Iv in B3. specialize (B3 Hi Hj). rewrite O1, O2, !Nat.sub_0_r in B3. rewrite B3.
    apply (F5 P Pr Pf Hw); apply Iv; assumption.
Qed.

(** The constructor "DDM building local hmatrix with overlap" of DDMSolverWithDenseLocalSolver: the cluster tree is built from the points
    of the subdomain with two children and two parts; the dense matrix is the restriction of the global matrix, in the local numbering. *)
Theorem C66_with_overlap :
  forall K gen l2g sorter strat minsize tfuel s T loc sy adm compress fuel A,
    let P2 := mkBparams (length l2g) 2 2 minsize None 1 in
    let tp := fun i => nth i (st_perm s) 0 in
    sorter_ok sorter -> cluster_tree sorter strat P2 tfuel = Some (s, T, loc) -> st_errors s = 0 ->
    letters_ok K sy (dense_solver_uplo sy) -> (sy = SyN \/ forall i j, gen j i = flip sy (gen i j)) ->
    compress_ok K compress -> positive_rank K compress ->
    local_hmatrix K gen l2g tp sy (dense_solver_uplo sy) adm compress fuel T (level (part_depth P2) T) = Some A ->
    exists M, with_overlap K tp A = Some M /\
      forall P : car K -> car K -> Prop, (forall c, P c c) -> (forall a b, P a b -> P (flip sy a) (flip sy b)) ->
        compress_within K (fun i j => gen (nth (tp i) l2g 0) (nth (tp j) l2g 0)) compress P -> restriction P everywhere gen l2g M.
Proof.
  intros K gen l2g sorter strat minsize tfuel s T loc sy adm compress fuel A P2 tp Hs HT He Hl Hg Hco Hrk HA.
  destruct (built_partitioned sorter strat P2 tfuel s T loc Hs) as (Q1 & Q2 & _); [cbn; lia|cbn; lia|cbn; lia|discriminate|exact HT|exact He|].
  assert (HI : interval T = (0, length l2g)) by (apply (C02_children_tile sorter strat P2 tfuel s T loc Hs ltac:(discriminate) HT)).
  assert (HN : numbering (length l2g) tp) by (apply permutation_numbering; apply (C01_permutation_is_bijection sorter strat P2 tfuel s T loc Hs ltac:(discriminate) HT)).
  exact (with_overlap_ok K gen l2g tp sy _ adm compress fuel T _ A Hl Hg Q1 Q2 Hco Hrk HI HN HA).
Qed.
Print Assumptions C66_with_overlap.

(** A subdomain with too few points for two parts (the cluster tree is reduced to its root, and an error has been logged): the local matrix
    is one dense block, the exact restriction. *)
Theorem C66_small_subdomain :
  forall K gen l2g tp sy adm compress fuel T parts,
    letters_ok K sy (dense_solver_uplo sy) -> (sy = SyN \/ forall i j, gen j i = flip sy (gen i j)) ->
    ct_children T = [] -> (c_rank T < 0)%Z -> l2g <> [] -> interval T = (0, length l2g) -> numbering (length l2g) tp ->
    exists A M, local_hmatrix K gen l2g tp sy (dense_solver_uplo sy) adm compress (S fuel) T parts = Some A /\
      with_overlap K tp A = Some M /\ restriction eq everywhere gen l2g M.
Proof.
  intros K gen l2g tp sy adm compress fuel T parts Hl Hg Hc Hr Hne HI (N1 & N2 & N3). set (n := length l2g) in *.
  assert (Hn : 1 <= n) by (destruct l2g; [congruence|cbn; unfold n; cbn; lia]).
  assert (O : c_off T = 0 /\ c_size T = n) by (unfold interval in HI; injection HI as Q1 Q2; split; assumption). destruct O as [O1 O2].
  set (B := local_builder adm (dense_solver_uplo sy) parts). set (g := fun i j => gen (nth (tp i) l2g 0) (nth (tp j) l2g 0)).
  assert (HB : build_root B (S fuel) T T = Some (RNode (mkBinfo T T (Some TDense) (has_sym B T T)) [])).
  { unfold build_root. cbn [build_block_tree]. unfold branch, low_rank_task.
    replace (0 <=? c_rank T)%Z with false by (symmetry; apply Z.leb_gt; exact Hr). rewrite !andb_false_r. cbn [andb].
    unfold is_leaf. rewrite Hc. cbn [andb]. unfold reset_root, in_part. cbn [bb_tpart B local_builder]. reflexivity. }
  set (x := mkBinfo T T (Some TDense) (has_sym B T T)) in *.
  pose (h := hleaf K sy B g compress x).
  assert (HA : local_hmatrix K gen l2g tp sy (dense_solver_uplo sy) adm compress (S fuel) T parts = Some (RNode h [])).
  { unfold local_hmatrix, hbuild. fold B. rewrite HB. reflexivity. }
  exists (RNode h []).
  assert (HL : hleaves K (RNode h []) = Some ([h], [])). { unfold hleaves. cbn [preorder flat_map length hleaves_run rt_val rt_children rev map app]. change (h_t h) with T. change (h_s h) with T. rewrite Nat.eqb_refl. cbn [negb]. rewrite andb_false_r. reflexivity. }
  assert (Hs : has_sym B T T = match sy with SyN => false | _ => true end).
  { unfold has_sym. cbn [bb_uplo B local_builder]. rewrite !Nat.eqb_refl. destruct sy; reflexivity. }
  assert (Hg' : sy = SyN \/ forall i j, g j i = flip sy (g i j)) by (destruct Hg as [Q|Q]; [left; exact Q|right; intros i j; apply Q]).
  assert (Dr : dense_ready K h).
  { pose (cz := fun t s : ctree => mkLrm (mkMat (K:=K) 1 1 []) (mkMat (K:=K) 1 1 [])).
    change (dense_ready K (hleaf K sy B g cz x)). apply hleaf_ready; [intros t s _ _; discriminate|exact Hg'|reflexivity]. }
  assert (W : well_formed h [h] [] sy).
  { split.
    - intros k [<-|[]]. split.
      + split; [change (h_t h) with T; lia|]. split; [change (h_s h) with T; lia|]. change (h_data h) with (DDense (dense_data K g T T)). change (h_t h) with T. change (h_s h) with T.
        split; [apply of_fun_wf|]. split; [reflexivity|]. intros E i Hi. unfold dense_data. rewrite of_fun_me by assumption.
        assert (sy = SyH) by (unfold h, hleaf in E; cbn [h_sym] in E; destruct (b_sym x); [exact E|discriminate]).
        destruct Hg' as [Q|Q]; [congruence|]. specialize (Q (c_off T + i) (c_off T + i)). rewrite H in Q. symmetry. exact Q.
      + unfold h, hleaf. cbn [h_sym]. destruct (b_sym x); auto.
    - intros k [<-|[]]. change (h_t h) with T. change (h_s h) with T. split; apply contains_iff; lia.
    - intros k [].
    - congruence.
    - intros i j Hi Hj. unfold count. cbn [filter]. unfold hcovers. rewrite Hi, Hj. reflexivity. }
  assert (V : forall i j, i < n -> j < n -> value [h] [] sy i j = g i j).
  { intros i j Hi Hj. unfold value. cbn [find]. unfold hcovers. change (h_t h) with T. change (h_s h) with T.
    replace (in_iv i (interval T)) with true by (symmetry; apply in_ivb; lia). replace (in_iv j (interval T)) with true by (symmetry; apply in_ivb; lia). cbn [andb].
    unfold dense_ready in Dr. change (h_data h) with (DDense (dense_data K g T T)) in Dr. change (h_t h) with T in Dr. change (h_s h) with T in Dr.
    replace (i - c_off (h_t h)) with i by (change (h_t h) with T; lia). replace (j - c_off (h_s h)) with j by (change (h_s h) with T; lia). rewrite <- Dr by lia. unfold dense_data. rewrite of_fun_me by lia. rewrite O1; reflexivity. }
  assert (Iv : forall i, in_iv i (interval T) = true <-> i < n) by (intros i; rewrite in_ivb; lia).
  destruct (C22_copy_to_dense_in_user_numbering K (RNode h []) [h] [] sy tp tp HL W) with (b := repeat (c0 K) (n * n)) as (b & B1 & B2 & B3).
  - destruct Hl as [[-> _]|[[-> _]|(-> & _ & Q)]]; cbn; [exact I|left; discriminate|split; [discriminate|exact Q]].
  - intros k [<-|[]]. exact Dr.
  - intros i. change (h_t (rt_val (RNode h []))) with T. rewrite !Iv. apply N1.
  - intros i. change (h_s (rt_val (RNode h []))) with T. rewrite !Iv. apply N1.
  - intros i j. change (h_t (rt_val (RNode h []))) with T. rewrite !Iv. apply N2.
  - intros i j. change (h_s (rt_val (RNode h []))) with T. rewrite !Iv. apply N2.
  - reflexivity.
  - change (h_t (rt_val (RNode h []))) with T. change (h_s (rt_val (RNode h []))) with T. rewrite O2, repeat_length. lia.
  - change (h_t (rt_val (RNode h []))) with T in *. change (h_s (rt_val (RNode h []))) with T in *.
    exists (mkMat n n b). split; [exact HA|]. unfold with_overlap. change (h_t (rt_val (RNode h []))) with T. rewrite O2, B1. split; [reflexivity|].
    split; [split; [reflexivity|split; [reflexivity|]]; cbn [md mkMat]; rewrite B2, repeat_length; reflexivity|].
    intros a c Ha Hc' _. destruct (N3 a Ha) as (i & Hi & <-). destruct (N3 c Hc') as (j & Hj & <-).
    unfold me. cbn [md mr mkMat]. specialize (B3 i j). rewrite !Iv in B3. specialize (B3 Hi Hj). rewrite O1, O2, !Nat.sub_0_r in B3. rewrite B3. apply V; assumption.
Qed.
Print Assumptions C66_small_subdomain.

(** The points that the local cluster tree is built from. *)
Theorem C66_local_geometry :
  forall (V : Type) d l2g (geo : list V), (forall x, In x l2g -> d * x + d <= length geo) ->
    exists geo', local_geometry d l2g geo = Some geo' /\ length geo' = d * length l2g /\
      forall i k, i < length l2g -> k < d -> nth_error geo' (d * i + k) = nth_error geo (d * nth i l2g 0 + k).
Proof.
  intros V d l2g geo. unfold local_geometry.
  assert (AS : forall (l : list (option V)), (forall o, In o l -> o <> None) -> exists r, all_some l = Some r /\ map Some r = l).
  { induction l as [|[a|] l IH]; intros H; [exists []; split; reflexivity| |exfalso; apply (H None); [left; reflexivity|reflexivity]].
    destruct IH as (r & E1 & E2); [intros o Ho; apply H; right; exact Ho|]. exists (a :: r). cbn. rewrite E1, E2. split; reflexivity. }
  intros H. destruct (AS (flat_map (fun g => map (fun k => nth_error geo (d * g + k)) (seq 0 d)) l2g)) as (r & E1 & E2).
  { intros o Ho. apply in_flat_map in Ho. destruct Ho as (g & Hg & Ho). apply in_map_iff in Ho. destruct Ho as (k & <- & Hk). apply in_seq in Hk. apply nth_error_Some. specialize (H g Hg). lia. }
  exists r. split; [exact E1|]. rewrite <- (map_length Some r), E2.
  assert (Len : forall l, length (flat_map (fun g => map (fun k => nth_error geo (d * g + k)) (seq 0 d)) l) = d * length l).
  { induction l as [|a l IH]; [cbn; lia|]. cbn [flat_map length]. rewrite app_length, map_length, seq_length, IH. lia. }
  split; [apply Len|]. intros i k Hi Hk.
  assert (Q : nth_error (map Some r) (d * i + k) = Some (nth_error geo (d * nth i l2g 0 + k))).
  { rewrite E2. clear H E1 E2 AS. revert i Hi. induction l2g as [|a l IH]; intros i Hi; [cbn in Hi; lia|]. cbn [flat_map].
    assert (La : length (map (fun k => nth_error geo (d * a + k)) (seq 0 d)) = d) by (rewrite map_length, seq_length; reflexivity).
    destruct i as [|i].
    - rewrite Nat.mul_0_r, Nat.add_0_l, nth_error_app1 by lia. cbn [nth]. apply (map_nth_error (fun k => nth_error geo (d * a + k))).
      rewrite (nth_error_nth' _ 0) by (rewrite seq_length; exact Hk). rewrite seq_nth by exact Hk. reflexivity.
    - rewrite nth_error_app2 by nia. rewrite La. replace (d * S i + k - d) with (d * i + k) by nia. cbn [nth]. apply IH. cbn in Hi. lia. }
  destruct (nth_error r (d * i + k)) as [y|] eqn:Er.
  - apply (map_nth_error Some) in Er. rewrite Er in Q. injection Q as Q. exact Q.
  - exfalso. assert (nth_error (map Some r) (d * i + k) = None); [|congruence]. apply nth_error_None. rewrite map_length. apply nth_error_None, Er.
Qed.
Print Assumptions C66_local_geometry.

(** *** Examples: the 23 points of P_HMat.v in 5 parts, user numbering reversed; process 2 owns the indices 11..14 and has 3 points of
    overlap. *)
Definition ov_perm (i : nat) : nat := if i <? 23 then 22 - i else i.
Lemma ov_perm_invol : forall i, ov_perm (ov_perm i) = i.
Proof. intros i. unfold ov_perm. destruct (Nat.ltb_spec i 23); [|destruct (Nat.ltb_spec i 23); lia]. destruct (Nat.ltb_spec (22 - i) 23); lia. Qed.
Definition ov_gen (i j : nat) : car Zc := ex_gen' (ov_perm i) (ov_perm j).
Definition ov_l2g : list nat := [11; 10; 9; 8; 20; 3; 7].
Definition ov_entries (l2g : list nat) (gen : nat -> nat -> car Zc) (sel : nat -> nat -> bool) (M : option (mat Zc)) : bool :=
  match M with
  | Some M => forallb (fun ij => negb (sel (fst ij) (snd ij)) || Z.eqb (me M (fst ij) (snd ij)) (gen (nth (fst ij) l2g 0) (nth (snd ij) l2g 0))) (list_prod (seq 0 (length l2g)) (seq 0 (length l2g)))
  | None => false
  end.
Example ex_adding_overlap :
  ov_entries ov_l2g ov_gen (fun _ _ => true)
    (do A <- hbuild Zc SyN (exB (Some 2) None UpN true) (fun i j => ov_gen (ov_perm i) (ov_perm j)) ex_compress 200 exT exT; do D <- sub Zc A (ex_part 2) (ex_part 2); adding_overlap Zc ov_gen ov_l2g false D) = true.
Proof. vm_compute. reflexivity. Qed.
Example ex_overlap_hypotheses : starts_with_cluster ov_perm 11 4 ov_l2g /\ 4 <= length ov_l2g /\ positive_rank Zc ex_compress /\
  compress_within Zc (fun i j => ov_gen (ov_perm i) (ov_perm j)) ex_compress eq.
Proof.
  split; [reflexivity|]. split; [cbn; lia|]. split; [intros t s _ _; discriminate|].
  intros t s i j _ _ Hi Hj. rewrite (ex_compress_exact t s i j) by (try assumption; reflexivity). unfold ov_gen. rewrite !ov_perm_invol. reflexivity.
Qed.
(** LocalNumberingBuilder, the points of the subdomain given in another order. *)
Example ex_numbering : match local_numbering [20; 8; 9; 3; 10; 11; 7] [5; 4; 2; 1] [] with Some (l, _) => l = ov_l2g | None => False end.
Proof. vm_compute. reflexivity. Qed.
(** Symmetric, UPLO 'L', the whole matrix as a diagonal block and one more point. *)
Example ex_adding_overlap_symmetric :
  ov_entries (seq 0 24) ex_gen (fun i j => j <=? i) (do A <- exS None UpL; adding_overlap Zc (ex_gen : nat -> nat -> car Zc) (seq 0 24) true A) = true.
Proof. vm_compute. reflexivity. Qed.
(** A local hierarchical matrix on a subdomain of 23 points of 40. *)
Definition ov_sub : list nat := map (fun i => (i * 11) mod 40) (seq 0 23).
Definition ov_tree := cluster_tree (isort ex_key) Regular (mkBparams 23 2 2 1 None 1) 25.
Definition ov_local (sy : symc) (gen : nat -> nat -> car Zc) : option (mat Zc) :=
  match ov_tree with
  | Some (s, T, _) =>
      do A <- local_hmatrix Zc gen ov_sub (fun i => nth i (st_perm s) 0) sy (dense_solver_uplo sy) (fun _ _ => false) ex_compress 200 T (level 1 T);
      with_overlap Zc (fun i => nth i (st_perm s) 0) A
  | None => None
  end.
Example ex_with_overlap : ov_entries ov_sub ex_gen' (fun _ _ => true) (ov_local SyN ex_gen') = true /\ ov_entries ov_sub ex_gen (fun _ _ => true) (ov_local SyS ex_gen) = true.
Proof. split; vm_compute; reflexivity. Qed.
Example ex_tree_errors : match ov_tree with Some (s, T, _) => (st_errors s =? 0) && negb (is_leaf T) | None => false end = true.
Proof. vm_compute. reflexivity. Qed.

(** *** UPLO 'U' (the constructor of the solver only logs an error): the block is upper, the overlap is lower, and no triangle of the
    assembled matrix is complete. *)
Theorem C66_upper_refuted :
  match (do A <- exS None UpU; adding_overlap Zc (ex_gen : nat -> nat -> car Zc) (seq 0 24) true A) with
  | Some M => Z.eqb (me M 22 0) 0 && Z.eqb (me M 0 23) 0 && Z.eqb (ex_gen 22 0) 45 && Z.eqb (ex_gen 0 23) 47
  | None => false
  end = true.
Proof. vm_compute. reflexivity. Qed.
Print Assumptions C66_upper_refuted.

(** A numbering shorter than the block: the iterators of line 105 are out of range. *)
Theorem C66_short_numbering_refuted :
  forall K gen l2g sym (A : rtree (hinfo K)), length l2g < c_size (h_t (rt_val A)) -> adding_overlap K gen l2g sym A = None.
Proof. intros K gen l2g sym A H. unfold adding_overlap. apply Nat.ltb_lt in H. rewrite H. reflexivity. Qed.
Print Assumptions C66_short_numbering_refuted.
