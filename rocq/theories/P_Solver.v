(** * Properties C39, C41, C42: domain decomposition.

    Vocabulary: SolverModel.v (model), SolverSpec.v (specification). *)

From Coq Require Import List Arith ZArith Bool Lia Ring Permutation.
From Verif Require Import ClusterModel ClusterSpec ClusterMore ClusterFinal IOModel BlockModel BlockSpec P_Cluster P_Block Algebra BlasModel BlasProofs
  HMatModel HMatSpec HMatProofs HMatLoops HMatProducts HMatBuild HMatTop P_HMat DistModel DistSpec DistProofs DistVec DistMat DistLocal DistLink P_Dist
  SolverModel SolverSpec SolverNum SolverCoarse.
Import ListNotations.

Lemma map_nth_seq : forall (l : list nat) d, map (fun k => nth k l d) (seq 0 (length l)) = l.
Proof.
  induction l as [|a l IH]; intros d; [reflexivity|]. cbn [length seq map nth]. f_equal. rewrite <- seq_shift, map_map. exact (IH d).
Qed.

(** C39.  [ovr]: ovr_subdomain_to_global, [clu]: cluster_to_ovr_subdomain. *)
Theorem C39_local_numbering :
  forall (ovr clu : list nat) (inter : list (list nat)),
    let n := length ovr in
    NoDup clu -> (forall k, In k clu -> k < n) -> (forall l k, In l inter -> In k l -> k < n) ->
    exists l2g inter', local_numbering ovr clu inter = Some (l2g, inter') /\
      l2g = map (fun k => nth k ovr 0) (clu ++ others clu n) /\
      Permutation l2g ovr /\
      Forall2 (Forall2 (fun k k' => k' < n /\ nth k' l2g 0 = nth k ovr 0 /\ nth k' (clu ++ others clu n) 0 = k)) inter inter'.
Proof.
  intros ovr clu inter n Hd Hb Hi. destruct (numbering_ok ovr clu Hd Hb inter Hi) as (l2g & inter' & E1 & E2 & E3).
  exists l2g, inter'. split; [exact E1|]. split; [exact E2|]. split; [|exact E3].
  rewrite E2. rewrite (order_perm ovr clu Hd Hb). clear. rewrite <- (map_nth_seq ovr 0) at 2. reflexivity.
Qed.
Print Assumptions C39_local_numbering.

(** A subdomain of 6 points; the cluster points are 4, 1, 3 in this order. *)
Example ex_numbering :
  local_numbering [10; 11; 12; 13; 14; 15] [4; 1; 3] [[0; 4]; [3; 2; 5]] = Some ([14; 11; 13; 10; 12; 15], [[3; 0]; [2; 4; 5]]).
Proof. reflexivity. Qed.
Example ex_numbering_hyps : NoDup [4; 1; 3] /\ (forall k, In k [4; 1; 3] -> k < 6).
Proof. split; [repeat constructor; cbn; intuition discriminate|]. intros k H. cbn in H. intuition lia. Qed.
(** With a repeated point the second loop writes past the end. *)
Theorem C39_repeated_point_refuted : local_numbering [10; 11] [0; 0] [] = None.
Proof. reflexivity. Qed.

(** C41.  [gt]: > on the moduli, a strict weak ordering; [val k]: |w[k]|; [index]: the result of std::sort. *)
Section C41.
  Variables (K : Coef) (V : Type) (gt : V -> V -> bool).
  Notation C := (car K).

  (** Column j of Z is the vector index[j] on the points inside, zero on the overlap. *)
  Definition holds_vectors (Z ev : mat K) (n inside nevi : nat) (index : list nat) : Prop :=
    mr Z = n /\ mc Z = nevi /\ length (md Z) = n * nevi /\
    forall i j, i < n -> j < nevi -> me Z i j = if i <? inside then me ev i (nth j index 0) else c0 K.

  Lemma vectors_ok : forall n inside nevi (ev : mat K) index, Permutation index (seq 0 n) -> nevi <= n -> inside <= n -> mr ev = n -> length (md ev) = n * n ->
    exists Z, coarse_vectors K n inside nevi ev index = Some Z /\ holds_vectors Z ev n inside nevi index.
  Proof.
    intros n inside nevi ev index Hp Hv Hi Hr Hl. unfold coarse_vectors.
    assert (Li : length index = n) by (rewrite (Permutation_length Hp); apply seq_length).
    destruct (transpose_ok K (fun i j b' => do k <- nth_error index j; if i + k * mr ev <? length (md ev) then set1 K (i + j * n) (me ev i k) b' else None)
      (fun i j => i + j * n) (fun i j => me ev i (nth j index 0)) inside nevi (repeat (c0 K) (n * nevi))) as (d & E1 & E2 & E3 & E4).
    - intros i j i' j' H1 H2 H3 H4 Q. apply (rows_inj n); [lia|lia|exact Q].
    - intros i j b H1 H2 Hb _. rewrite repeat_length in Hb |- *. assert (En : nth_error index j = Some (nth j index 0)) by (apply nth_error_nth'; lia). rewrite En.
      assert (Hk : nth j index 0 < n).
      { assert (Q : In (nth j index 0) index) by (apply nth_In; lia). apply (Permutation_in _ Hp) in Q. apply in_seq in Q. lia. }
      replace (_ <? _) with true by (symmetry; apply Nat.ltb_lt; rewrite Hr, Hl; nia).
      destruct (set1_ok K (i + j * n) (me ev i (nth j index 0)) b) as (b' & S1 & S2 & S3); [rewrite Hb; nia|].
      exists b'. split; [exact S1|]. split; [lia|exact S3].
    - rewrite E1. eexists. split; [reflexivity|]. split; [reflexivity|]. split; [reflexivity|]. split; [cbn [md mkMat]; rewrite E2, repeat_length; reflexivity|].
      intros i j H1 H2. unfold me at 1. cbn [md mr mkMat]. destruct (Nat.ltb_spec i inside); [apply E3; lia|]. rewrite E4; [apply get_repeat|].
      intros i' j' H3 H4 Q. destruct (rows_inj n i j i' j'); [lia|lia|exact Q|lia].
  Qed.

  Hypothesis Hgt : strict_weak gt.
  Variables (thr : V) (val : nat -> V) (n inside : nat) (ev : mat K) (index : list nat).
  Hypothesis Hp : Permutation index (seq 0 n).
  Hypothesis Hin : inside <= n.
  Hypothesis Hev : mr ev = n /\ length (md ev) = n * n.

  Lemma some_index : forall p, (exists k, k < n /\ p k) -> exists j b, 0 <= j /\ nth_error index j = Some b /\ p b.
  Proof.
    intros p (k & Hk & Hpk). assert (Q : In k index) by (apply (Permutation_in _ (Permutation_sym Hp)); apply in_seq; lia).
    apply In_nth_error in Q. destruct Q as (j & E). exists j, k. split; [lia|auto].
  Qed.
  Lemma kept_iff : forall (keep : nat -> bool) m, m <= length index -> (forall i a, nth_error index i = Some a -> (i < m <-> keep a = true)) ->
    forall k, k < n -> In k (firstn m index) <-> keep k = true.
  Proof.
    intros keep m Hm H k Hk. rewrite in_firstn_nth by exact Hm. split.
    - intros (i & Hi & E). apply (H i k E). exact Hi.
    - intros Q. assert (G : In k index) by (apply (Permutation_in _ (Permutation_sym Hp)); apply in_seq; lia). apply In_nth_error in G. destruct G as (i & E).
      exists i. split; [apply (H i k E); exact Q|exact E].
  Qed.
  Lemma len_index : length index = n.
  Proof. rewrite (Permutation_length Hp). apply seq_length. Qed.

  Lemma threshold_sym : sorted_by (fun a b => gt (val a) (val b)) index -> (exists k, k < n /\ gt (val k) thr = false) ->
    exists nevi Z, coarse_space_sym K (Some (fun x => gt x thr)) 0 val n inside ev index = Some Z /\ holds_vectors Z ev n inside nevi index /\
      forall k, k < n -> In k (firstn nevi index) <-> gt (val k) thr = true.
  Proof.
    intros Hs He. destruct (first_false (fun k => gt (val k) thr) index) with (fuel := S n) (nevi := 0)
      (f := count_above (fun x => gt x thr) val index) as (m & E1 & E2 & E3).
    - intros i j a b Hij Ea Eb Hb. destruct (sw_cotrans _ Hgt _ (val a) _ Hb) as [Q|Q]; [|exact Q]. rewrite (Hs i j a b Hij Ea Eb) in Q. discriminate.
    - intros i a Hi. lia.
    - apply (some_index (fun k => gt (val k) thr = false)). exact He.
    - rewrite len_index. lia.
    - reflexivity.
    - unfold coarse_space_sym. rewrite E1. destruct Hev as [H1 H2]. rewrite len_index in E2. destruct (vectors_ok n inside m ev index Hp E2 Hin H1 H2) as (Z & F1 & F2).
      exists m, Z. split; [exact F1|]. split; [exact F2|]. intros k Hk. apply (kept_iff (fun k => gt (val k) thr)); [rewrite len_index; exact E2|exact E3|exact Hk].
  Qed.

  Lemma threshold_gen : forall inf, sorted_by (fun a b => (inf a || gt (val a) (val b)) && negb (inf b)) index ->
    (exists k, k < n /\ inf k = false /\ gt (val k) thr = false) ->
    exists nevi Z, coarse_space_gen K (Some (fun x => gt x thr)) 0 inf val n inside ev index = Some Z /\ holds_vectors Z ev n inside nevi index /\
      forall k, k < n -> In k (firstn nevi index) <-> (inf k = true \/ gt (val k) thr = true).
  Proof.
    intros inf Hs (k0 & Hk0 & Hi0 & Hv0). destruct (first_false (fun k => inf k || gt (val k) thr) index) with (fuel := S n) (nevi := 0)
      (f := count_above_gen (fun x => gt x thr) inf val index) as (m & E1 & E2 & E3).
    - intros i j a b Hij Ea Eb Hb. specialize (Hs i j a b Hij Ea Eb). cbn beta in Hs. destruct (inf a); [reflexivity|]. cbn [orb negb] in *. rewrite andb_true_r in Hs.
      apply orb_false_iff in Hs. destruct Hs as [Q1 Q2]. rewrite Q1 in Hb. cbn [orb] in Hb. destruct (sw_cotrans _ Hgt _ (val a) _ Hb) as [Q|Q]; [congruence|exact Q].
    - intros i a Hi. lia.
    - apply (some_index (fun k => inf k || gt (val k) thr = false)). exists k0. rewrite Hi0, Hv0. auto.
    - rewrite len_index. lia.
    - intros k v. cbn [count_above_gen]. destruct (nth_error index v) as [x|] eqn:Ex; [|reflexivity].
      assert (Lv : v < length index) by (apply nth_error_Some; congruence). apply Nat.ltb_lt in Lv. rewrite Lv, !andb_true_r. reflexivity.
    - unfold coarse_space_gen. rewrite E1. destruct Hev as [H1 H2]. rewrite len_index in E2. destruct (vectors_ok n inside m ev index Hp E2 Hin H1 H2) as (Z & F1 & F2).
      exists m, Z. split; [exact F1|]. split; [exact F2|]. intros k Hk. rewrite <- orb_true_iff. apply (kept_iff (fun k => inf k || gt (val k) thr)); [rewrite len_index; exact E2|exact E3|exact Hk].
  Qed.
  Lemma first_nu : forall nu inf, nu <= n -> sorted_by (fun a b => (inf a || gt (val a) (val b)) && negb (inf b)) index ->
    exists Z, coarse_space_gen K None nu inf val n inside ev index = Some Z /\ holds_vectors Z ev n inside nu index /\
      forall k k', In k (firstn nu index) -> k' < n -> ~ In k' (firstn nu index) -> inf k = false -> inf k' = false /\ gt (val k') (val k) = false.
  Proof.
    intros nu inf Hnu Hs. unfold coarse_space_gen. destruct Hev as [H1 H2]. destruct (vectors_ok n inside nu ev index Hp Hnu Hin H1 H2) as (Z & F1 & F2).
    exists Z. split; [exact F1|]. split; [exact F2|]. intros k k' Hk Hk' Hn Hi. rewrite in_firstn_nth in Hk, Hn by (rewrite len_index; exact Hnu).
    destruct Hk as (i & Li & Ei). assert (G : In k' index) by (apply (Permutation_in _ (Permutation_sym Hp)); apply in_seq; lia). apply In_nth_error in G. destruct G as (j & Ej).
    assert (Lj : ~ j < nu) by (intros Q; apply Hn; exists j; auto). specialize (Hs i j k k' ltac:(lia) Ei Ej). cbn beta in Hs. rewrite Hi in Hs. cbn [negb] in Hs. rewrite andb_true_r in Hs.
    apply orb_false_iff in Hs. exact Hs.
  Qed.
End C41.

(** The eigenvalues above the threshold are kept and no other one, if at least one is not above. *)
Theorem C41_threshold_keeps_exactly_the_large :
  forall K V (gt : V -> V -> bool) (thr : V) (val : nat -> V) n inside (ev : mat K) (index : list nat),
    strict_weak gt -> Permutation index (seq 0 n) -> sorted_by (fun a b => gt (val a) (val b)) index ->
    inside <= n -> mr ev = n -> length (md ev) = n * n ->
    (exists k, k < n /\ gt (val k) thr = false) ->
    exists nevi Z, coarse_space_sym K (Some (fun x => gt x thr)) 0 val n inside ev index = Some Z /\
      holds_vectors K Z ev n inside nevi index /\
      forall k, k < n -> In k (firstn nevi index) <-> gt (val k) thr = true.
Proof. intros K V gt thr val n inside ev index Hg Hp Hs Hi H1 H2. exact (threshold_sym K V gt Hg thr val n inside ev index Hp Hi (conj H1 H2) Hs). Qed.
Print Assumptions C41_threshold_keeps_exactly_the_large.

(** The general case: [inf k] is |beta[k]| < 1e-15 (infinite eigenvalue, kept), val k is |alphar[k]/beta[k]|. *)
Theorem C41_threshold_general :
  forall K V (gt : V -> V -> bool) (thr : V) (val : nat -> V) (inf : nat -> bool) n inside (ev : mat K) (index : list nat),
    strict_weak gt -> Permutation index (seq 0 n) -> sorted_by (fun a b => (inf a || gt (val a) (val b)) && negb (inf b)) index ->
    inside <= n -> mr ev = n -> length (md ev) = n * n ->
    (exists k, k < n /\ inf k = false /\ gt (val k) thr = false) ->
    exists nevi Z, coarse_space_gen K (Some (fun x => gt x thr)) 0 inf val n inside ev index = Some Z /\
      holds_vectors K Z ev n inside nevi index /\
      forall k, k < n -> In k (firstn nevi index) <-> (inf k = true \/ gt (val k) thr = true).
Proof. intros K V gt thr val inf n inside ev index Hg Hp Hs Hi H1 H2. exact (threshold_gen K V gt Hg thr val n inside ev index Hp Hi (conj H1 H2) inf Hs). Qed.
Print Assumptions C41_threshold_general.

(** With nu vectors instead of a threshold: the nu largest. *)
Theorem C41_first_nu :
  forall K V (gt : V -> V -> bool) (val : nat -> V) (inf : nat -> bool) nu n inside (ev : mat K) (index : list nat),
    Permutation index (seq 0 n) -> sorted_by (fun a b => (inf a || gt (val a) (val b)) && negb (inf b)) index ->
    inside <= n -> mr ev = n -> length (md ev) = n * n -> nu <= n ->
    exists Z, coarse_space_gen K None nu inf val n inside ev index = Some Z /\ holds_vectors K Z ev n inside nu index /\
      forall k k', In k (firstn nu index) -> k' < n -> ~ In k' (firstn nu index) -> inf k = false -> inf k' = false /\ gt (val k') (val k) = false.
Proof. intros K V gt val inf nu n inside ev index Hp Hs Hi H1 H2 Hnu. exact (first_nu K V gt val n inside ev index Hp Hi (conj H1 H2) nu inf Hnu Hs). Qed.
Print Assumptions C41_first_nu.

(** If all are above the threshold, the loop reads past the end of index. *)
Lemma all_above : forall V (above : V -> bool) val index fuel v, (forall k, In k index -> above (val k) = true) -> count_above above val index fuel v = None.
Proof.
  intros V above val index. induction fuel as [|fuel IH]; intros v H; [reflexivity|]. cbn [count_above]. destruct (nth_error index v) as [k|] eqn:E; [|reflexivity].
  rewrite H by exact (nth_error_In _ _ E). assert (v < length index) by (apply nth_error_Some; congruence). replace (v <? length index) with true by (symmetry; apply Nat.ltb_lt; exact H0).
  cbn [andb]. apply IH. exact H.
Qed.
Theorem C41_all_above_refuted :
  forall K V (above : V -> bool) (val : nat -> V) n inside (ev : mat K) (index : list nat), Permutation index (seq 0 n) ->
    (forall k, k < n -> above (val k) = true) -> coarse_space_sym K (Some above) 0 val n inside ev index = None.
Proof.
  intros K V above val n inside ev index Hp H. unfold coarse_space_sym. rewrite all_above; [reflexivity|]. intros k Hk. apply H. apply (Permutation_in _ Hp) in Hk. apply in_seq in Hk. lia.
Qed.
Print Assumptions C41_all_above_refuted.

Example ex_threshold : let w := [4; 9; 1; 6]%Z in
  coarse_space_sym Zc (Some (fun x => 3 <? x)%Z) 0 (fun k => nth k w 0%Z) 4 3 (@mkMat Zc 4 4 (map Z.of_nat (seq 1 16))) [1; 3; 0; 2]
  = Some (@mkMat Zc 4 3 [5; 6; 7; 0; 13; 14; 15; 0; 1; 2; 3; 0]%Z).
Proof. vm_compute. reflexivity. Qed.
Example ex_threshold_hyps : let w := [4; 9; 1; 6]%Z in let gt := fun x y => (y <? x)%Z in
  strict_weak gt /\ Permutation [1; 3; 0; 2] (seq 0 4) /\ sorted_by (fun a b => gt (nth a w 0%Z) (nth b w 0%Z)) [1; 3; 0; 2] /\ (exists k, k < 4 /\ gt (nth k w 0%Z) 3%Z = false).
Proof.
  cbv zeta. split; [|split; [|split]].
  - split.
    + intros a. apply Z.ltb_irrefl.
    + intros a b c H. apply Z.ltb_lt in H. destruct (Z_lt_le_dec b a); [left; apply Z.ltb_lt; assumption|right; apply Z.ltb_lt; lia].
    + intros a b H. apply Z.ltb_lt in H. apply Z.ltb_ge. lia.
  - apply NoDup_Permutation; [repeat constructor; cbn; intuition discriminate|apply seq_NoDup|]. intros k. cbn. intuition lia.
  - intros i j a b Hij Ea Eb. destruct i as [|[|[|[|i]]]], j as [|[|[|[|j]]]]; try lia; cbn in Ea, Eb; try (destruct i; discriminate); try (destruct j; discriminate);
      injection Ea as <-; injection Eb as <-; reflexivity.
  - exists 2. split; [lia|reflexivity].
Qed.

(** C42.  [A]: the global matrix (numbering of the partition); [zs r]: the coarse vectors of process r, of which the first
    size-of-the-part coefficients are used; any number of processes and any number of vectors per process. *)
Theorem C42_coarse_operator_is_galerkin :
  forall K (parts : list (nat * nat)) N (sym : symc) (n : nat -> nat) (zs : nat -> list (list (car K)))
         (subs : nat -> list (list (car K) -> list (car K) -> nat -> nat -> nat -> option (list (car K)))) (A : nat -> nat -> car K),
    tiles 0 N parts ->
    (forall r o s, nth_error parts r = Some (o, s) -> s <= n r /\ forall z, In z (zs r) -> s <= length z) ->
    sub_products parts A subs ->
    sym = SyN \/ sym = SyS ->
    let vecs := all_vectors parts zs in
    exists E, coarse_operator K parts sym n zs subs = Some E /\ mr E = length vecs /\ mc E = length vecs /\ length (md E) = length vecs * length vecs /\
      forall a b va vb, nth_error vecs a = Some va -> nth_error vecs b = Some vb ->
        me E a b = form N A (extended vb) (extended va).
Proof.
  intros K parts N sym n zs subs A HT Hn HS Hsym vecs. destruct (coarse_ok K parts N sym n zs subs A HT Hn HS) as (E & E1 & E2 & E3 & E4 & E5).
  exists E. split; [exact E1|]. split; [exact E2|]. split; [exact E3|]. split; [exact E4|]. intros a b va vb Ha Hb.
  rewrite E5 by (apply nth_error_Some; fold vecs; congruence). unfold entry, vec. fold vecs. rewrite (nth_error_nth _ _ _ Ha), (nth_error_nth _ _ _ Hb).
  unfold form, cj. destruct Hsym as [-> | ->]; reflexivity.
Qed.
Print Assumptions C42_coarse_operator_is_galerkin.

(** Hermitian operators: the vectors are conjugated once: E(a,b) = z_b^T A conj(z_a). *)
Theorem C42_hermitian :
  forall K (parts : list (nat * nat)) N (n : nat -> nat) (zs : nat -> list (list (car K)))
         (subs : nat -> list (list (car K) -> list (car K) -> nat -> nat -> nat -> option (list (car K)))) (A : nat -> nat -> car K),
    tiles 0 N parts ->
    (forall r o s, nth_error parts r = Some (o, s) -> s <= n r /\ forall z, In z (zs r) -> s <= length z) ->
    sub_products parts A subs ->
    let vecs := all_vectors parts zs in
    exists E, coarse_operator K parts SyH n zs subs = Some E /\ mr E = length vecs /\ mc E = length vecs /\
      forall a b va vb, nth_error vecs a = Some va -> nth_error vecs b = Some vb ->
        me E a b = form N A (extended vb) (fun q => cconj K (extended va q)).
Proof.
  intros K parts N n zs subs A HT Hn HS vecs. destruct (coarse_ok K parts N SyH n zs subs A HT Hn HS) as (E & E1 & E2 & E3 & E4 & E5).
  exists E. split; [exact E1|]. split; [exact E2|]. split; [exact E3|]. intros a b va vb Ha Hb.
  rewrite E5 by (apply nth_error_Some; fold vecs; congruence). unfold entry, vec. fold vecs. rewrite (nth_error_nth _ _ _ Ha), (nth_error_nth _ _ _ Hb). reflexivity.
Qed.
Print Assumptions C42_hermitian.

(** The operators built by htool: one hierarchical matrix per process, the rows of its part by all the columns. *)
Theorem C42_one_hierarchical_matrix_per_process :
  forall K (tp sp : partition) (sy : symc) (ps : list (process K)) (A : nat -> nat -> car K),
    compat K TrN sy -> tiles 0 (pa_n sp) (pa_parts tp) -> Forall2 (holds_part K sp sy A) (pa_parts tp) ps ->
    sub_products (pa_parts tp) A (hmat_subs K (pa_parts tp) (pa_n sp) sy ps).
Proof. exact hmat_subs_ok. Qed.
Print Assumptions C42_one_hierarchical_matrix_per_process.

(** Three processes with 2, 0 and 1 coarse vectors; dense local operators. *)
Definition ex_cparts : list (nat * nat) := [(0, 2); (2, 1); (3, 2)].
Definition ex_cA (i j : nat) : car Zc := (Z.of_nat (i * i + 3 * j) - 4)%Z.
Definition ex_csub (r : nat) : list (list (car Zc) -> list (car Zc) -> nat -> nat -> nat -> option (list (car Zc))) :=
  let os := nth r ex_cparts (0, 0) in
  [fun x y mu off size => lo_sub Zc (local_dense Zc (of_fun Zc (snd os) 5 (fun i j => ex_cA (fst os + i) j)) os (0, 5) [] [] SyN UpN false false) x y mu off size].
Definition ex_cz (r : nat) : list (list (car Zc)) := nth r [[[1; 2; 7]; [-1; 3; 5]]; []; [[2; 5]]]%Z [].
Example ex_coarse :
  exists E, coarse_operator Zc ex_cparts SyN (fun r => S (snd (nth r ex_cparts (0, 0)))) ex_cz ex_csub = Some E /\ mr E = 3 /\
    map (fun b => map (fun a => me E a b) (seq 0 3)) (seq 0 3) =
    map (fun b => map (fun a => @form Zc 5 ex_cA (extended (nth b (@all_vectors Zc ex_cparts ex_cz) (0, 0, []))) (extended (nth a (@all_vectors Zc ex_cparts ex_cz) (0, 0, [])))) (seq 0 3)) (seq 0 3) /\
    me E 0 2 <> me E 2 0.
Proof. eexists. split; [vm_compute; reflexivity|]. split; [reflexivity|]. split; [vm_compute; reflexivity|]. vm_compute. discriminate. Qed.

(** Hermitian: a matrix and a vector for which E is not the Galerkin product z^H A z. *)
Definition ex_hA (i j : nat) : car Gc := nth j (nth i [[(2, 0)%Z; (0, 1)%Z]; [(0, -1)%Z; (3, 0)%Z]] []) (0, 0)%Z.
Definition ex_hz : list (car Gc) := [(1, 0); (0, 1)]%Z.
Theorem C42_hermitian_galerkin_refuted :
  (forall i j, i < 2 -> j < 2 -> ex_hA i j = cconj Gc (ex_hA j i)) /\
  exists E, coarse_operator Gc [(0, 2)] SyH (fun _ => 2) (fun _ => [ex_hz])
      (fun _ => [fun x y mu off size => lo_sub Gc (local_dense Gc (of_fun Gc 2 2 ex_hA) (0, 2) (0, 2) [] [] SyN UpN false false) x y mu off size]) = Some E /\
    me E 0 0 = (7, 0)%Z /\
    @form Gc 2 ex_hA (fun p => cconj Gc (get ex_hz p)) (get ex_hz) = (3, 0)%Z.
Proof.
  split.
  - intros i j Hi Hj. destruct i as [|[|i]], j as [|[|j]]; try lia; reflexivity.
  - eexists. split; [vm_compute; reflexivity|]. split; vm_compute; reflexivity.
Qed.

(** A local operator whose source cluster does not start at 0: the copy into the local buffer is out of bounds. *)
Theorem C42_source_offset_refuted :
  lo_sub Zc (local_dense Zc (@mkMat Zc 1 2 [1; 1]%Z) (0, 1) (1, 2) [] [] SyN UpN false false) [5]%Z [0]%Z 1 2 1 = None.
Proof. vm_compute. reflexivity. Qed.
