(** * C59: computation of the blocks by several threads; a builder used twice. *)

From Coq Require Import List Arith ZArith Bool Lia Permutation.
From Verif Require Import ClusterModel ClusterSpec IOModel IOSpec BlockModel BlockSpec Algebra BlasModel HMatModel DistModel BuildModel BuildSpec BuildProofs BuildTop P_Cluster P_Block.
Import ListNotations.

(** C59.  With a new builder, for any number of threads, any distribution of the iterations of the two loops over the threads and any
    interleaving of the statements: when the threads have finished, every block of the tree holds what it should (compressed, or the
    entries of the generator), the number of refused compressions is right, and no block of another matrix has changed. *)
Theorem C59_blocks_computed : forall (K : Coef) (gen : nat -> nat -> car K) compress split sched b (h : heap K) u' h',
  (forall adm dns, distributes (split adm dns) adm dns) ->
  build_blocks K gen compress split sched b fresh h = Some (u', h') ->
  computed K gen compress h' (length h) (task_list b) /\ length h' = length h + length (task_list b) /\
  (forall p, p < length h -> nth p h' None = nth p h None) /\
  bu_fp u' = length (filter (false_positive K gen compress) (task_list b)).
Proof. exact build_ok. Qed.
Print Assumptions C59_blocks_computed.

(** Whatever has been executed so far, the computation can be completed: no statement fails, no thread waits for another one. *)
Theorem C59_never_stuck : forall (K : Coef) (gen : nat -> nat -> car K) compress split sched b (h : heap K),
  (forall adm dns, distributes (split adm dns) adm dns) ->
  exists more, build_blocks K gen compress split (sched ++ more) b fresh h <> None.
Proof. exact build_continues. Qed.
Print Assumptions C59_never_stuck.

(** The blocks that have been computed are those of the matrix: the reset of the root (target partition) loses none. *)
Theorem C59_blocks_of_the_matrix : forall (K : Coef) sy B (gen : nat -> nat -> car K) compress T S fuel b H,
  partitioned T (bb_tparts B) -> partitioned S (bb_sparts B) -> part_valid B T ->
  build_block_tree B fuel T S = Some b -> hbuild K sy B gen compress fuel T S = Some H ->
  Permutation (map (fun i => (b_t i, b_s i, block_data K gen compress i)) (task_list b))
    (map (fun i => (h_t i, h_s i, h_data i)) (filter has_data (map rt_val (preorder H)))).
Proof. exact built_blocks. Qed.
Print Assumptions C59_blocks_of_the_matrix.

(** With a generator of dense blocks: it is called once with the sizes and the offsets of all the dense blocks, and every one of them
    holds what it has written; the compressed blocks are as before. *)
Theorem C59_dense_blocks_generator : forall (K : Coef) (gen : nat -> nat -> car K) compress g shares sched L (h : heap K) fp m,
  (forall i, In i L -> b_task i <> None) ->
  distributes shares (pointers (length h) true L) (pointers (length h) false L) ->
  let dense := filter (fun i => negb (is_low i)) L in
  let written := g (map (fun i => (c_size (b_t i), c_size (b_s i), c_off (b_t i), c_off (b_s i))) dense) in
  Forall2 (fun i d => length d = c_size (b_t i) * c_size (b_s i)) dense written ->
  compute_blocks K gen compress (Some g) shares sched (pointers (length h) false L) (mkMem K (h ++ map (fun i => Some (new_cell K i)) L) fp) = Some m ->
  (forall p, p < length h -> nth p (m_heap K m) None = nth p h None) /\
  m_fp K m = fp + length (filter (false_positive K gen compress) L) /\
  (forall k i, nth_error L k = Some i -> b_task i = Some TLowRank ->
     exists c, nth (length h + k) (m_heap K m) None = Some c /\ cl_t K c = b_t i /\ cl_s K c = b_s i /\ holds K c (block_data K gen compress i)) /\
  (forall n i d, nth_error dense n = Some i -> nth_error written n = Some d ->
     exists k c, nth_error L k = Some i /\ n = length (filter (fun j => negb (is_low j)) (firstn k L)) /\
       nth (length h + k) (m_heap K m) None = Some c /\ cl_t K c = b_t i /\ cl_s K c = b_s i /\
       holds K c (DDense (mkMat (c_size (b_t i)) (c_size (b_s i)) d))).
Proof.
  intros K gen compress g shares sched L h fp m HT Hd dense written Hg H.
  destruct (custom_ok K gen compress g shares sched L h fp m HT Hd Hg H) as (A1 & A2 & A3 & A4).
  split; [exact A1|]. split; [exact A2|]. split.
  - intros k i Ek Et. apply (A3 k i Ek). unfold is_low. rewrite Et. reflexivity.
  - intros n i d Ei Ed. destruct (A4 n i d Ei Ed) as (k & Ek & Ep & Ec). exists k. eexists. split; [exact Ek|]. split; [|split; [exact Ec|cbn; auto]].
    assert (Hl : is_low i = false) by (apply nth_error_In in Ei; apply filter_In in Ei; destruct Ei as [_ Ei]; apply negb_true_iff; exact Ei).
    clear - Ek Ep Hl. revert Ek Ep. generalize (length h). revert k n. induction L as [|j L IH]; intros k n base Ek Ep; [destruct k; discriminate|].
    rewrite pointers_cons in Ep. destruct k as [|k]; cbn [nth_error firstn filter] in *.
    + injection Ek as <-. rewrite Hl in Ep. cbn [Bool.eqb app] in Ep. destruct n as [|n]; [reflexivity|]. cbn [nth_error] in Ep.
      apply nth_error_In in Ep. apply pointers_In in Ep. destruct Ep as (k' & j' & _ & E & _). lia.
    + assert (Q : forall n', nth_error (pointers (Datatypes.S base) false L) n' = Some (base + Datatypes.S k) -> n' = length (filter (fun j => negb (is_low j)) (firstn k L))).
      { intros n' E. apply (IH k n' (Datatypes.S base) Ek). rewrite E. f_equal. lia. }
      destruct (is_low j); cbn [Bool.eqb app negb] in *; [exact (Q n Ep)|]. destruct n as [|n]; cbn [nth_error] in Ep; [injection Ep as E; lia|]. cbn [length]. f_equal. exact (Q n Ep).
Qed.
Print Assumptions C59_dense_blocks_generator.

(** *** Example: the tree of P_Block.v, part 3, two threads.  Compression of rank one, refused when the offset of the source is odd. *)
Definition bx_gen (i j : nat) : Z := (100 * Z.of_nat i + Z.of_nat j)%Z.
Definition bx_compress (t s : ctree) : lrm Zc :=
  if Nat.even (c_off s) then mkLrm (mkMat (K:=Zc) (c_size t) 1 (repeat 1%Z (c_size t))) (mkMat (K:=Zc) 1 (c_size s) (repeat 2%Z (c_size s)))
  else mkLrm (mkMat (K:=Zc) 0 0 []) (mkMat (K:=Zc) 0 0 []).
Definition bx_split (adm dns : list nat) : list (list nat * list nat) := [(firstn 2 adm, skipn 3 dns); (skipn 2 adm, firstn 3 dns)].
Lemma bx_distributes : forall adm dns, distributes (bx_split adm dns) adm dns.
Proof.
  intros adm dns. unfold distributes, bx_split. cbn [map fst snd concat]. rewrite !app_nil_r. split.
  - rewrite firstn_skipn. apply Permutation_refl.
  - rewrite Permutation_app_comm, firstn_skipn. apply Permutation_refl.
Qed.
Definition bx_sched : list nat := concat (repeat [0; 1; 1] 200).
Definition bx_tree (tp : option nat) : btree := match build_block_tree (exB tp None UpN true) 200 exT exT with Some b => b | None => RNode (mkBinfo exT exT None false) [] end.
Example C59_hyps :
  part_valid (exB (Some 3) None UpN true) exT /\
  build_block_tree (exB (Some 3) None UpN true) 200 exT exT = Some (bx_tree (Some 3)) /\
  (3 <=? length (filter is_low (task_list (bx_tree (Some 3))))) = true /\
  match build_blocks Zc bx_gen bx_compress bx_split bx_sched (bx_tree (Some 3)) fresh [None; None] with
  | Some (u, h) => (1 <=? bu_fp u) && (bu_fp u <? length (filter is_low (task_list (bx_tree (Some 3))))) && (8 <=? length h) = true
  | None => False
  end.
Proof.
  split; [|split; [|split]].
  - unfold part_valid. cbn [bb_tpart bb_tparts exB]. destruct (nth_error ex_parts 3) as [u|] eqn:E.
    + right. split; [exact (proj2 (proj2 ex_hyps))|]. assert (Q : match nth_error ex_parts 3 with Some u => contains exT u | None => false end = true) by (vm_compute; reflexivity).
      rewrite E in Q. exact Q.
    + assert (Q : match nth_error ex_parts 3 with Some u => true | None => false end = true) by (vm_compute; reflexivity). rewrite E in Q. discriminate.
  - vm_compute. reflexivity.
  - vm_compute. reflexivity.
  - vm_compute. reflexivity.
Qed.

(** *** A builder used twice: the first matrix gets the entries of the second generator, and its refused blocks are counted again. *)
Definition small_A : ctree := CNode (mkCinfo 0 0 1 1 0 []) [].
Definition small_B : ctree := CNode (mkCinfo 1 1 3 1 0 []) [].
Definition small_root : ctree := CNode (mkCinfo (-1) 0 4 0 0 []) [small_A; small_B].
Definition small_bb : bbuild := mkBbuild None UpN None 0 0 true (fun t s => negb (c_off t =? c_off s)) [small_A; small_B] [small_A; small_B].
Definition small_sched : list nat := concat (repeat [0; 1; 1] 10).
Definition small_tree : btree := match build_block_tree small_bb 5 small_root small_root with Some b => b | None => RNode (mkBinfo small_root small_root None false) [] end.
Definition dense_at (h : heap Zc) (k : nat) : list Z := match nth k h None with Some c => match cl_dense Zc c with Some D => md D | None => [] end | None => [] end.
Theorem C59_reused_builder_refuted : exists b gen1 gen2 split sched u1 h1 u2 h2,
  build_block_tree small_bb 5 small_root small_root = Some b /\
  (forall adm dns, distributes (split adm dns) adm dns) /\
  build_blocks Zc gen1 bx_compress split sched b fresh [] = Some (u1, h1) /\
  build_blocks Zc gen2 bx_compress split sched b u1 h1 = Some (u2, h2) /\
  computed Zc gen1 bx_compress h1 0 (task_list b) /\
  ~ computed Zc gen1 bx_compress h2 0 (task_list b) /\
  bu_fp u2 <> length (filter (false_positive Zc gen2 bx_compress) (task_list b)).
Proof.
  exists small_tree, bx_gen, (fun _ _ => 7%Z), bx_split, small_sched.
  assert (Q : match build_blocks Zc bx_gen bx_compress bx_split small_sched small_tree fresh [] with
    | Some (u1, h1) => match build_blocks Zc (fun _ _ => 7%Z) bx_compress bx_split small_sched small_tree u1 h1 with
                       | Some (u2, h2) => (length (dense_at h1 3) =? 9) && (nth 1 (dense_at h2 3) 0%Z =? 7)%Z && (bu_fp u2 =? 3) &&
                                          (length (filter (false_positive Zc (fun _ _ => 7%Z) bx_compress) (task_list small_tree)) =? 1)
                       | None => false end
    | None => false end = true) by (vm_compute; reflexivity).
  destruct (build_blocks Zc bx_gen bx_compress bx_split small_sched small_tree fresh []) as [[u1 h1]|] eqn:E1; [|discriminate].
  destruct (build_blocks Zc (fun _ _ => 7%Z) bx_compress bx_split small_sched small_tree u1 h1) as [[u2 h2]|] eqn:E2; [|discriminate].
  apply andb_prop in Q. destruct Q as [Q Q4]. apply andb_prop in Q. destruct Q as [Q Q3]. apply andb_prop in Q. destruct Q as [Q1 Q2].
  apply Nat.eqb_eq in Q3, Q4. apply Z.eqb_eq in Q2.
  exists u1, h1, u2, h2. split; [vm_compute; reflexivity|]. split; [exact bx_distributes|]. split; [reflexivity|]. split; [exact E2|].
  split; [exact (proj1 (C59_blocks_computed _ _ _ _ _ _ _ _ _ bx_distributes E1))|].
  split; [|rewrite Q3, Q4; discriminate].
  intros Hc. destruct (nth_error (task_list small_tree) 3) as [i|] eqn:Ei; [|vm_compute in Ei; discriminate].
  destruct (Hc 3 i Ei) as (c & Ec & _ & _ & Hh). assert (Et : b_task i = Some TDense /\ b_t i = small_B /\ b_s i = small_B).
  { vm_compute in Ei. injection Ei as <-. auto. }
  destruct Et as (Et & E3 & E4). unfold block_data in Hh. rewrite Et, E3, E4 in Hh. destruct Hh as (_ & _ & Hd).
  unfold dense_at in Q2. change (nth (0 + 3) h2 None) with (nth 3 h2 None) in Ec. rewrite Ec, Hd in Q2. vm_compute in Q2. discriminate.
Qed.
Print Assumptions C59_reused_builder_refuted.

(** *** After the first matrix has been destroyed, the builder can not be used any more: every execution accesses a destroyed block. *)
Definition one_leaf : ctree := CNode (mkCinfo 0 0 2 0 0 []) [].
Definition one_block : btree := RNode (mkBinfo one_leaf one_leaf (Some TDense) false) [].
Theorem C59_destroyed_matrix_refuted : exists (b : btree) (gen : nat -> nat -> Z) split sched u1 h1,
  (forall adm dns, distributes (split adm dns) adm dns) /\
  build_blocks Zc gen bx_compress split sched b fresh [] = Some (u1, h1) /\
  forall sched', build_blocks Zc gen bx_compress split sched' b u1 (destroy Zc 0 (length h1) h1) = None.
Proof.
  exists one_block, bx_gen, (fun adm dns => [(adm, dns)]), [0; 0].
  assert (Q : match build_blocks Zc bx_gen bx_compress (fun adm dns => [(adm, dns)]) [0; 0] one_block fresh [] with
    | Some (u1, h1) => match bu_adm u1, bu_dense u1 with [], [0] => length h1 =? 1 | _, _ => false end
    | None => false end = true) by (vm_compute; reflexivity).
  destruct (build_blocks Zc bx_gen bx_compress (fun adm dns => [(adm, dns)]) [0; 0] one_block fresh []) as [[[adm dns fp] h1]|] eqn:E; [|discriminate].
  cbn [bu_adm bu_dense] in Q. destruct adm; [|discriminate]. destruct dns as [|[|?] [|? ?]]; try discriminate. destruct h1 as [|c1 [|? ?]]; try discriminate.
  eexists. eexists. split; [|split; [reflexivity|]].
  - intros adm dns. unfold distributes. cbn [map fst snd concat]. rewrite !app_nil_r. split; apply Permutation_refl.
  - intros sched'.
    assert (G : forall prog l (m : mem Zc) sched', look Zc (m_heap Zc m) 0 = None ->
      run Zc bx_gen bx_compress sched' ([mkThread (IDense 0 :: prog) l], m) = None \/
      run Zc bx_gen bx_compress sched' ([mkThread (IDense 0 :: prog) l], m) = Some ([mkThread (IDense 0 :: prog) l], m)).
    { intros prog l m sched Hm. induction sched as [|i sched IH]; [right; reflexivity|]. cbn [run]. destruct i as [|i].
      - left. unfold step. cbn [fst snd nth_error exec]. unfold on_cell. rewrite Hm. reflexivity.
      - unfold step at 1 2. cbn [fst nth_error]. destruct i; exact IH. }
    unfold build_blocks, compute_blocks, destroy. cbn [bu_adm bu_dense bu_fp length firstn skipn repeat app Nat.add].
    change (pointers 1 true (task_list one_block)) with (@nil nat).
    cbn [map program flat_map fst snd app].
    match goal with |- match match run _ _ _ sched' ([mkThread (_ :: ?p) ?l], ?m) with _ => _ end with _ => _ end = None => destruct (G p l m sched' eq_refl) as [Q'|Q'] end;
      rewrite Q'; reflexivity.
Qed.
Print Assumptions C59_destroyed_matrix_refuted.
