(** * Property C61: extraction of the diagonal.

    Vocabulary: DiagModel.v, DiagSpec.v; [value L Y sy] (HMatSpec.v) is the represented matrix. *)

From Coq Require Import List Arith ZArith Bool Permutation Lia Ring.
From Verif Require Import ClusterModel ClusterSpec ClusterFinal IOModel IOSpec IOProofs BlockModel BlockSpec BlockProofs
  BlockFinal BlockSym BlockLink P_Cluster P_Block Algebra BlasModel BlasProofs HMatModel HMatSpec HMatProofs HMatLoops HMatProducts HMatBuild HMatTop P_HMat
  DiagModel DiagSpec DiagProofs.
Import ListNotations.

(** C61.  In the numbering of the clusters. *)
Theorem C61_copy_diagonal :
  forall K (A : hmat K) L Y sy,
    hleaves K A = Some (L, Y) -> well_formed (rt_val A) L Y sy -> square K (rt_val A) -> (forall h, In h L -> on_diagonal K h) ->
    forall b, c_size (h_t (rt_val A)) <= length b ->
      exists b', copy_diagonal K A b = Some b' /\
        is_diagonal K (h_t (rt_val A)) (fun i => i - c_off (h_t (rt_val A))) (value L Y sy) b b'.
Proof.
  intros K A L Y sy HL W Hs Hd b Hb.
  destruct (diagonal_ok K A L Y sy _ HL (value_holds K _ _ _ _ W) Hs Hd b Hb) as (b' & E1 & E2 & E3 & E4).
  exists b'. split; [exact E1|]. split; [exact E2|]. split; [|exact E4].
  intros i Hi. rewrite in_ivb in Hi. split; [lia|]. rewrite (E3 (i - c_off (h_t (rt_val A)))) by lia. f_equal; lia.
Qed.
Print Assumptions C61_copy_diagonal.

(** In the numbering of the user, where the permutation is stable on the cluster. *)
Theorem C61_copy_diagonal_in_user_numbering :
  forall K (A : hmat K) L Y sy tp,
    hleaves K A = Some (L, Y) -> well_formed (rt_val A) L Y sy -> square K (rt_val A) -> (forall h, In h L -> on_diagonal K h) ->
    permutes (h_t (rt_val A)) tp ->
    forall b, c_size (h_t (rt_val A)) <= length b ->
      exists b', copy_diagonal_in_user_numbering K tp A b = Some b' /\
        is_diagonal K (h_t (rt_val A)) (fun i => tp i - c_off (h_t (rt_val A))) (value L Y sy) b b'.
Proof.
  intros K A L Y sy tp HL W Hs Hd [P1 P2] b Hb.
  destruct (diagonal_user_ok K A L Y sy _ HL (value_holds K _ _ _ _ W) Hs Hd tp) with (b := b) as (b' & E1 & E2 & E3 & E4).
  - intros i Hi. specialize (P1 i). rewrite !in_ivb in P1. apply P1, Hi.
  - intros i i' Hi Hi'. apply P2; rewrite in_ivb; assumption.
  - exact Hb.
  - exists b'. split; [exact E1|]. split; [exact E2|]. split; [|exact E4].
    intros i Hi. pose proof (P1 i Hi) as P. rewrite in_ivb in Hi, P. split; [lia|]. apply E3, Hi.
Qed.
Print Assumptions C61_copy_diagonal_in_user_numbering.

(** A square matrix built from one cluster tree meets the hypotheses, with or without symmetry: the admissibility condition refuses
    two different clusters that share an index, and a compressed block has a positive rank. *)
Definition refuses_overlap (B : bbuild) (T : ctree) : Prop :=
  forall t s, In t (ct_nodes T) -> In s (ct_nodes T) -> bb_adm B t s = true -> t = s \/ disj t s.
Definition positive_rank K (compress : ctree -> ctree -> lrm K) : Prop :=
  forall t s, mr (lU (compress t s)) = c_size t -> mc (lV (compress t s)) = c_size s -> lrank (compress t s) <> 0.

Theorem C61_built_matrices :
  forall K B gen compress T fuel A,
    bb_uplo B = UpN -> bb_tpart B = None -> partitioned T (bb_tparts B) -> partitioned T (bb_sparts B) -> nonempty T ->
    compress_ok K compress -> refuses_overlap B T -> positive_rank K compress ->
    hbuild K SyN B gen compress fuel T T = Some A ->
    forall P : car K -> car K -> Prop, (forall c, P c c) -> compress_within K gen compress P ->
      forall b, c_size T <= length b ->
        (exists M b', copy_diagonal K A b = Some b' /\ is_diagonal K T (fun i => i - c_off T) M b b' /\
           forall i, in_iv i (interval T) = true -> P (M i i) (gen i i)) /\
        forall tp, permutes T tp ->
          exists M b', copy_diagonal_in_user_numbering K tp A b = Some b' /\ is_diagonal K T (fun i => tp i - c_off T) M b b' /\
            forall i, in_iv i (interval T) = true -> P (M i i) (gen i i).
Proof.
  intros K B gen compress T fuel A HN HP HT HS NT Hco Hov Hrk HA P Pr Hw b Hb.
  assert (HV : part_valid B T) by (unfold part_valid; rewrite HP; exact I).
  destruct (C18_built_matrices K B gen compress T T fuel A HN HT HS NT NT HV Hco HA) as (L & E1 & E2 & _ & E4 & E5 & E6).
  assert (HD : (forall h, In h L -> on_diagonal K h) /\ h_t (rt_val A) = T).
  { unfold hbuild in HA. destruct (build_root B fuel T T) as [root|] eqn:E; [|discriminate]. injection HA as HA. subst A.
    destruct (nosym_built K SyN B gen compress Hco (fun q => ltac:(discriminate)) T T fuel root eq_refl HN HT HS NT NT HV E)
      as (L' & H1 & _ & _ & _ & H5 & _). rewrite E1 in H1. injection H1 as <-. split.
    - intros h Hh. destruct (H5 h Hh) as (x & -> & Hx & Hk & _).
      exact (built_on_diagonal K SyN B gen compress T HT HS HV (removed_N B HN T T) Hov Hrk fuel root x E Hx Hk).
    - destruct (build_root_shape B T T HT HS HV fuel root E) as [f Hi HB|f root0 p u cs f' Ep]; [|congruence].
      destruct (build_facts B T T HT HS f T T root (tN_root T) (sN_root T) (root_t_ok B T HT HV) HB) as (F1 & _). destruct root as [v l]. exact F1. }
  destruct HD as [HD HTr].
  assert (Sq : square K (rt_val A)) by (unfold square; rewrite HTr, E5; split; reflexivity).
  assert (Vw : forall i, in_iv i (interval T) = true -> P (value L [] SyN i i) (gen i i)).
  { intros i Hi. apply E6; auto. rewrite <- E4, HTr. exact Hi. }
  split.
  - destruct (C61_copy_diagonal K A L [] SyN E1 E2 Sq HD b) as (b' & B1 & B2); [rewrite HTr; exact Hb|]. rewrite HTr in B2. exists (value L [] SyN), b'. auto.
  - intros tp Ht. destruct (C61_copy_diagonal_in_user_numbering K A L [] SyN tp E1 E2 Sq HD) with (b := b) as (b' & B1 & B2); [rewrite HTr; exact Ht|rewrite HTr; exact Hb|].
    rewrite HTr in B2. exists (value L [] SyN), b'. auto.
Qed.
Print Assumptions C61_built_matrices.

Theorem C61_built_symmetric_matrices :
  forall K sy B gen compress T fuel A,
    (sy = SyS \/ sy = SyH) -> (forall i j, gen j i = flip sy (gen i j)) ->
    bb_uplo B <> UpN -> bb_tpart B = None -> bb_qpart B = None -> bb_cons B = true -> partitioned T (bb_tparts B) -> bb_sparts B = bb_tparts B -> nonempty T ->
    compress_ok K compress -> refuses_overlap B T -> positive_rank K compress ->
    hbuild K sy B gen compress fuel T T = Some A ->
    forall P : car K -> car K -> Prop, (forall c, P c c) -> (forall a b, P a b -> P (flip sy a) (flip sy b)) -> compress_within K gen compress P ->
      forall b, c_size T <= length b ->
        (exists M b', copy_diagonal K A b = Some b' /\ is_diagonal K T (fun i => i - c_off T) M b b' /\
           forall i, in_iv i (interval T) = true -> P (M i i) (gen i i)) /\
        forall tp, permutes T tp ->
          exists M b', copy_diagonal_in_user_numbering K tp A b = Some b' /\ is_diagonal K T (fun i => tp i - c_off T) M b b' /\
            forall i, in_iv i (interval T) = true -> P (M i i) (gen i i).
Proof.
  intros K sy B gen compress T fuel A Hsy Hg HU HP HQ HC HT HS NT Hco Hov Hrk HA P Pr Pf Hw b Hb.
  assert (HV : part_valid B T) by (unfold part_valid; rewrite HP; exact I).
  destruct (C19_built_matrices K sy B gen compress T T fuel A Hsy Hg HU HT HS NT HC (or_introl (conj HP (conj HQ eq_refl))) Hco HA)
    as (L & Y & E1 & E2 & _ & E4 & E5 & E6).
  assert (HD : forall h, In h L -> on_diagonal K h).
  { unfold hbuild in HA. destruct (build_root B fuel T T) as [root|] eqn:E; [|discriminate]. injection HA as HA. subst A.
    assert (Hgo : gen_ok K sy gen). { intros Eh i. rewrite (Hg i i) at 2. rewrite Eh. reflexivity. }
    destruct (sym_built K sy B gen compress Hco Hgo T T fuel root Hsy HU HT HS NT HC (or_introl (conj HP (conj HQ eq_refl))) E)
      as (L' & Y' & H1 & _ & _ & _ & H5 & _). rewrite E1 in H1. injection H1 as <- <-.
    intros h Hh. destruct (H5 h Hh) as (x & -> & Hx & Hk & _).
    assert (HS' : partitioned T (bb_sparts B)) by (rewrite HS; exact HT).
    assert (Hrem : removed B T T = false) by (exact (rT_wide B T HT HS NT HC T (or_introl (conj HP (conj HQ eq_refl))) HU)).
    exact (built_on_diagonal K sy B gen compress T HT HS' HV Hrem Hov Hrk fuel root x E Hx Hk). }
  assert (Sq : square K (rt_val A)) by (unfold square; rewrite E4, E5; split; reflexivity).
  assert (Vw : forall i, in_iv i (interval T) = true -> P (value L Y sy i i) (gen i i)).
  { intros i Hi. apply E6; auto. }
  split.
  - destruct (C61_copy_diagonal K A L Y sy E1 E2 Sq HD b) as (b' & B1 & B2); [rewrite E4; exact Hb|]. rewrite E4 in B2. exists (value L Y sy), b'. auto.
  - intros tp Ht. destruct (C61_copy_diagonal_in_user_numbering K A L Y sy tp E1 E2 Sq HD) with (b := b) as (b' & B1 & B2); [rewrite E4; exact Ht|rewrite E4; exact Hb|].
    rewrite E4 in B2. exists (value L Y sy), b'. auto.
Qed.
Print Assumptions C61_built_symmetric_matrices.

(** *** Examples: the 23 points of P_HMat.v, without symmetry and Hermitian; the numbering of the user reversed. *)
Example ex_diagonal :
  match exA with
  | Some A =>
      copy_diagonal Zc A (repeat (-1)%Z 24) = Some (map (fun i => ex_gen' i i) (seq 0 23) ++ [(-1)%Z]) /\
      copy_diagonal_in_user_numbering Zc (fun i => 22 - i) A (repeat (-1)%Z 24) = Some (map (fun i => ex_gen' (22 - i) (22 - i)) (seq 0 23) ++ [(-1)%Z])
  | None => False
  end.
Proof. vm_compute. split; reflexivity. Qed.
Example ex_diagonal_hermitian : forall u, In u [UpL; UpU] ->
  match exH u with
  | Some A => copy_diagonal Gc A (repeat (7, 7)%Z 23) = Some (map (fun i => ex_herm i i) (seq 0 23))
  | None => False
  end.
Proof. intros u [<-|[<-|[]]]; vm_compute; reflexivity. Qed.
(** The hypotheses of the theorems about built matrices hold there (the trees of P_HMat.v: ex_C18_hypotheses, ex_C19_hypotheses). *)
Example ex_diag_hypotheses : forall T, refuses_overlap (genB UpN ex_parts) T /\ positive_rank Zc ex_compress /\ permutes T (fun i => (c_off T + (c_off T + c_size T - 1 - i))%nat).
Proof.
  intros T. split; [|split; [|split]].
  - intros t s _ _ H. right. unfold bb_adm, genB, ex_adm in H. apply orb_true_iff in H. unfold disj. destruct H as [H|H]; apply Nat.leb_le in H; lia.
  - intros t s _ _. discriminate.
  - intros i H. rewrite in_ivb in *. lia.
  - intros i i' H H'. rewrite in_ivb in *. lia.
Qed.

(** *** Outside the hypotheses: rows and columns clustered differently, so that a rectangular low-rank block touches the diagonal.
    The 3x3 matrix with entries 10 i + j + 1: its two blocks are the rows 0-1 (low rank) and the row 2.  The code reads the entry (1,1) of
    the first block in an array with the wrong leading dimension, and never visits the entry (2,2). *)
Definition rect_r : ctree := CNode (mkCinfo 0%Z 0 3 0 0 []) [].
Definition rect_a : ctree := CNode (mkCinfo 0%Z 0 2 1 0 []) [].
Definition rect_b : ctree := CNode (mkCinfo 0%Z 2 1 1 1 []) [].
Definition rect_la : hinfo Zc := mkHinfo Zc rect_a rect_r SyN UpN
  (DLow (mkLrm (mkMat (K:=Zc) 2 2 [1; 11; 1; 1]%Z) (mkMat (K:=Zc) 2 3 [1; 0; 1; 1; 1; 2]%Z))) SyN UpN.
Definition rect_lb : hinfo Zc := mkHinfo Zc rect_b rect_r SyN UpN (DDense (mkMat (K:=Zc) 1 3 [21; 22; 23]%Z)) SyN UpN.
Definition rect_A : hmat Zc := RNode (mkHinfo Zc rect_r rect_r SyN UpN DNone SyN UpN) [RNode rect_la []; RNode rect_lb []].
Theorem C61_rectangular_blocks_refuted :
  exists L, hleaves Zc rect_A = Some (L, []) /\ well_formed (rt_val rect_A) L [] SyN /\ square Zc (rt_val rect_A) /\
    map (fun i => value L [] SyN i i) [0; 1; 2] = [1; 12; 23]%Z /\
    copy_diagonal Zc rect_A [0; 0; 0]%Z = Some [1; 3; 0]%Z.
Proof.
  exists [rect_lb; rect_la]. split; [vm_compute; reflexivity|]. split; [|split; [vm_compute; auto|split; vm_compute; reflexivity]].
  constructor.
  - intros h [<-|[<-|[]]]; (split; [vm_compute; repeat split; try lia; try (intros Q; first [discriminate Q|exfalso; apply Q; reflexivity])|left; reflexivity]).
  - intros h [<-|[<-|[]]]; split; reflexivity.
  - intros h [].
  - intros H. congruence.
  - intros i j Hi Hj. rewrite in_ivb in Hi, Hj. cbn in Hi, Hj.
    assert (i = 0 \/ i = 1 \/ i = 2) as [->|[->| ->]] by lia; assert (j = 0 \/ j = 1 \/ j = 2) as [->|[->| ->]] by lia; vm_compute; reflexivity.
Qed.
Print Assumptions C61_rectangular_blocks_refuted.
