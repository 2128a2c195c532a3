(** * Property C71: files of blocks.  Vocabulary: BlockFileSpec.v. *)

From Coq Require Import Ascii String List Arith Bool ZArith Lia Permutation.
From Verif Require Import ClusterModel ClusterSpec IOModel IOSpec IOProofs P_IO BlockModel BlockSpec BlockSym Algebra BlasModel HMatModel HMatSpec HMatBuild P_HMat DistModel InfoModel P_Info
  BlockFileModel BlockFileSpec BlockFileProofs.
Import ListNotations.
Local Open Scope string_scope.
Local Open Scope list_scope.
Local Open Scope nat_scope.

(** The file of save_leaves_with_rank: after the sizes of the matrix, one line for each leaf, in preorder. *)
Theorem C71_leaves_file :
  forall K (A : hmat K) name, exists text,
    save_leaves_with_rank K A name = Some (name ++ list_ascii_of_string ".csv", text) /\
    read_csv text = Some (first_line (rt_val A) :: map (block_line (rt_val A)) (leaves_of A)).
Proof.
  intros K A name. eexists. unfold save_leaves_with_rank. rewrite (C13_preorder _ A) by lia. split; [reflexivity|]. rewrite push_leaves. cbn [app].
  rewrite <- (file_text K (rt_val A) (leaves_of A) 0). cbn [repeat]. rewrite app_nil_r. reflexivity.
Qed.
Print Assumptions C71_leaves_file.

(** Without symmetry, the rectangles of the lines tile the matrix: every position lies in exactly one of them. *)
Theorem C71_lines_tile :
  forall K (A : hmat K) L name, hleaves K A = Some (L, []) -> well_formed (rt_val A) L [] SyN ->
    exists text lines, save_leaves_with_rank K A name = Some (name ++ list_ascii_of_string ".csv", text) /\ read_csv text = Some (first_line (rt_val A) :: lines) /\
      forall i j, i < c_size (h_t (rt_val A)) -> j < c_size (h_s (rt_val A)) -> count (line_covers (Z.of_nat i) (Z.of_nat j)) lines = 1.
Proof.
  intros K A L name HL W. destruct (C71_leaves_file K A name) as (text & E & R). exists text, (map (block_line (rt_val A)) (leaves_of A)). split; [exact E|]. split; [exact R|].
  intros i j Hi Hj. pose proof (count_lines K (rt_val A) (c_off (h_t (rt_val A)) + i) (c_off (h_s (rt_val A)) + j) (leaves_of A)) as Q.
  replace (Z.of_nat (c_off (h_t (rt_val A)) + i) - Z.of_nat (c_off (h_t (rt_val A))))%Z with (Z.of_nat i) in Q by lia.
  replace (Z.of_nat (c_off (h_s (rt_val A)) + j) - Z.of_nat (c_off (h_s (rt_val A))))%Z with (Z.of_nat j) in Q by lia.
  rewrite Q, <- (count_perm _ _ _ _ (hleaves_perm K A L [] HL)). pose proof (wf_once K _ _ _ _ W (c_off (h_t (rt_val A)) + i) (c_off (h_s (rt_val A)) + j)) as O.
  cbn [count filter length] in O. change (count (hcovers (c_off (h_s (rt_val A)) + j) (c_off (h_t (rt_val A)) + i)) []) with 0 in O. rewrite <- O.
  - lia.
  - unfold in_iv, interval. cbn [fst snd]. apply andb_true_iff. rewrite Nat.leb_le, Nat.ltb_lt. unfold c_off, c_size in *. lia.
  - unfold in_iv, interval. cbn [fst snd]. apply andb_true_iff. rewrite Nat.leb_le, Nat.ltb_lt. unfold c_off, c_size in *. lia.
Qed.
Print Assumptions C71_lines_tile.

(** With symmetry: no position lies in two rectangles, and a position that lies in none is the mirror image (in the numbering
    of the clusters) of one that lies in exactly one. *)
Theorem C71_lines_symmetric :
  forall K (A : hmat K) L Y sy name, hleaves K A = Some (L, Y) -> well_formed (rt_val A) L Y sy ->
    let o := c_off (h_t (rt_val A)) in let p := c_off (h_s (rt_val A)) in
    exists text lines, save_leaves_with_rank K A name = Some (name ++ list_ascii_of_string ".csv", text) /\ read_csv text = Some (first_line (rt_val A) :: lines) /\
      forall i j, in_iv i (interval (h_t (rt_val A))) = true -> in_iv j (interval (h_s (rt_val A))) = true ->
        let at_ i j := count (line_covers (Z.of_nat i - Z.of_nat o) (Z.of_nat j - Z.of_nat p)) lines in
        at_ i j = 1 \/ (at_ i j = 0 /\ at_ j i = 1).
Proof.
  intros K A L Y sy name HL W o p. destruct (C71_leaves_file K A name) as (text & E & R). exists text, (map (block_line (rt_val A)) (leaves_of A)). split; [exact E|]. split; [exact R|].
  intros i j Hi Hj at_. unfold at_, o, p. rewrite !count_lines, <- !(count_perm _ _ _ _ (hleaves_perm K A L Y HL)).
  pose proof (wf_once K _ _ _ _ W i j Hi Hj) as O. destruct (Nat.eq_dec (count (hcovers i j) L) 1) as [E1|E1]; [left; exact E1|right]. split; [lia|].
  assert (EY : count (hcovers j i) Y = 1) by lia. clear O E1.
  assert (X : exists h, In h Y /\ hcovers j i h = true).
  { unfold count in EY. destruct (filter (hcovers j i) Y) as [|h l] eqn:F; [discriminate|]. exists h. apply filter_In. rewrite F. left; reflexivity. }
  destruct X as (h & Hh & Hc). destruct (wf_sub K _ _ _ _ W h Hh) as (Hin & C1 & C2). destruct (wf_in K _ _ _ _ W h Hin) as (C3 & C4).
  unfold hcovers in Hc. apply andb_true_iff in Hc. destruct Hc as [Hc1 Hc2].
  assert (Ij : in_iv j (interval (h_t (rt_val A))) = true).
  { apply contains_iff in C3. unfold in_iv, interval in *. cbn [fst snd] in *. rewrite andb_true_iff, Nat.leb_le, Nat.ltb_lt in *. unfold c_off, c_size in *. lia. }
  assert (Ii : in_iv i (interval (h_s (rt_val A))) = true).
  { apply contains_iff in C4. unfold in_iv, interval in *. cbn [fst snd] in *. rewrite andb_true_iff, Nat.leb_le, Nat.ltb_lt in *. unfold c_off, c_size in *. lia. }
  pose proof (wf_once K _ _ _ _ W j i Ij Ii) as O.
  assert (G : 1 <= count (hcovers j i) L).
  { unfold count. assert (Q : In h (filter (hcovers j i) L)) by (apply filter_In; split; [exact Hin|unfold hcovers; rewrite Hc1, Hc2; reflexivity]). destruct (filter (hcovers j i) L); [destruct Q|cbn; lia]. }
  lia.
Qed.
Print Assumptions C71_lines_symmetric.

(** The hypotheses of C71_lines_tile are met by every matrix that HMatrixTreeBuilder builds without symmetry. *)
Theorem C71_built_matrices :
  forall K B gen compress T S fuel A name,
    bb_uplo B = UpN -> partitioned T (bb_tparts B) -> partitioned S (bb_sparts B) -> nonempty T -> nonempty S -> part_valid B T ->
    compress_ok K compress ->
    hbuild K SyN B gen compress fuel T S = Some A ->
    exists text lines, save_leaves_with_rank K A name = Some (name ++ list_ascii_of_string ".csv", text) /\ read_csv text = Some (first_line (rt_val A) :: lines) /\
      forall i j, i < c_size (h_t (rt_val A)) -> j < c_size (h_s (rt_val A)) -> count (line_covers (Z.of_nat i) (Z.of_nat j)) lines = 1.
Proof.
  intros K B gen compress T S fuel A name HN HT HS NT NS HV Hco HB. destruct (C18_built_matrices K B gen compress T S fuel A HN HT HS NT NS HV Hco HB) as (L & H1 & H2 & _).
  exact (C71_lines_tile K A L name H1 H2).
Qed.
Print Assumptions C71_built_matrices.

(** Likewise for the symmetric and Hermitian matrices. *)
Theorem C71_built_symmetric :
  forall K sy B gen compress T R fuel A name,
    (sy = SyS \/ sy = SyH) -> (forall i j, gen j i = flip sy (gen i j)) ->
    bb_uplo B <> UpN -> partitioned T (bb_tparts B) -> bb_sparts B = bb_tparts B -> nonempty T -> bb_cons B = true ->
    ((bb_tpart B = None /\ bb_qpart B = None /\ R = T) \/
     (exists q, bb_tpart B = Some q /\ bb_qpart B = Some q /\ nth_error (bb_tparts B) q = Some R /\
        (R = T \/ ((c_rank T < 0)%Z /\ contains T R = true)))) ->
    compress_ok K compress ->
    hbuild K sy B gen compress fuel T T = Some A ->
    exists text lines, save_leaves_with_rank K A name = Some (name ++ list_ascii_of_string ".csv", text) /\ read_csv text = Some (first_line (rt_val A) :: lines) /\
      forall i j, in_iv i (interval R) = true -> in_iv j (interval T) = true ->
        let at_ i j := count (line_covers (Z.of_nat i - Z.of_nat (c_off R)) (Z.of_nat j - Z.of_nat (c_off T))) lines in
        at_ i j = 1 \/ (at_ i j = 0 /\ at_ j i = 1).
Proof.
  intros K sy B gen compress T R fuel A name Hsy Hg HU HT HP NT HC HR Hco HB.
  destruct (C19_built_matrices K sy B gen compress T R fuel A Hsy Hg HU HT HP NT HC HR Hco HB) as (L & Y & H1 & H2 & _ & H3 & H4 & _).
  pose proof (C71_lines_symmetric K A L Y sy name H1 H2) as X. cbv zeta in X. rewrite H3, H4 in X. exact X.
Qed.
Print Assumptions C71_built_symmetric.

(** The files of save_levels: the p-th one holds, after the sizes, the nodes whose depth is the p-th requested one, in preorder,
    if that depth was not requested before. *)
Theorem C71_levels_files :
  forall K (A : rtree (hinfo K * nat)) name depths, (forall d, In d depths -> (0 <= d < 4294967296)%Z) ->
    exists files, save_levels K A name depths = Some files /\ length files = length depths /\
      forall p, p < length depths -> exists text, nth_error files p = Some (name ++ print_nat p ++ list_ascii_of_string ".csv", text) /\
        let r := fst (rt_val A) in
        (first_at depths p ->
           read_csv text = Some (first_line r :: map (block_line r)
             (map (fun u => fst (rt_val u)) (filter (fun u => (Z.of_nat (snd (rt_val u)) =? nth p depths 0)%Z) (preorder A))))) /\
        (~ first_at depths p -> read_csv text = Some [first_line r]).
Proof.
  intros K A name depths Hd. eexists. unfold save_levels. rewrite (C13_preorder _ A) by lia. split; [reflexivity|]. split; [rewrite map_length, seq_length; reflexivity|].
  intros p Hp. eexists. split.
  { rewrite nth_error_map. rewrite (nth_error_nth' _ 0) by (rewrite seq_length; exact Hp). rewrite seq_nth by exact Hp. cbn [option_map Nat.add]. reflexivity. }
  assert (Hm : forall q, q < length depths -> (nth q depths 0 mod 4294967296 = nth q depths 0)%Z) by (intros q Hq; apply Z.mod_small; apply Hd; apply nth_In; exact Hq).
  rewrite levels_fold by (try exact Hp; apply repeat_length).
  replace (nth p (repeat [] (Datatypes.length depths)) []) with (@nil display) by (clear; revert p; induction (Datatypes.length depths); intros [|p]; cbn; auto).
  cbn [app]. set (r := fst (rt_val A)).
  pose proof (file_text K r (map (fun u => fst (rt_val u)) (filter (fun u => match find_depth (snd (rt_val u)) depths with Some q => q =? p | None => false end) (preorder A))) 1) as F.
  cbn [repeat] in F. cbv zeta. split; intros H.
  - rewrite F. do 3 f_equal. f_equal. apply filter_ext. intros u. destruct (find_depth (snd (rt_val u)) depths) as [q|] eqn:E.
    + apply find_depth_some in E. destruct E as (E1 & E2 & E3). rewrite Hm in E2 by exact E1. apply eq_true_iff_eq. rewrite Nat.eqb_eq, Z.eqb_eq. split; [intros ->; symmetry; exact E2|].
      intros Q. destruct (lt_eq_lt_dec p q) as [[L|L]|L]; [|symmetry; exact L|].
      * exfalso. apply (E3 p L). rewrite Hm by exact Hp. symmetry. exact Q.
      * exfalso. apply (H q L). congruence.
    + symmetry. apply Z.eqb_neq. intros Q. apply (find_depth_none _ _ E p Hp). rewrite Hm by exact Hp. symmetry. exact Q.
  - rewrite F. rewrite filter_none; [reflexivity|]. intros u _. destruct (find_depth (snd (rt_val u)) depths) as [q|] eqn:E; [|reflexivity]. apply Nat.eqb_neq. intros ->.
    apply find_depth_some in E. destruct E as (E1 & E2 & E3). apply H. intros q Hq Q. apply (E3 q Hq). rewrite Hm by lia. rewrite Q. rewrite <- E2. symmetry. apply Hm. exact Hp.
Qed.
Print Assumptions C71_levels_files.

(** If every node is one deeper than its parent, these are the nodes of that level of the tree. *)
Theorem C71_level :
  forall K (A : hmat K) j, map (fun u => fst (rt_val u)) (filter (fun u => (Z.of_nat (snd (rt_val u)) =? Z.of_nat j)%Z) (preorder (with_depth 0 A))) = map rt_val (lev j A).
Proof.
  intros K A j. rewrite <- (level_filter _ A 0 j). f_equal. apply filter_ext. intros u. apply eq_true_iff_eq. rewrite Z.eqb_eq, Nat.eqb_eq. cbn [Nat.add]. lia.
Qed.
Print Assumptions C71_level.

(** The names of the files of save_levels are different. *)
Theorem C71_names_differ :
  forall name p q, name ++ print_nat p ++ list_ascii_of_string ".csv" = name ++ print_nat q ++ list_ascii_of_string ".csv" -> p = q.
Proof.
  intros name p q H. apply app_inv_head in H. apply app_inv_tail in H. pose proof (stoi_nat_print p) as E. rewrite H, stoi_nat_print in E. congruence.
Qed.
Print Assumptions C71_names_differ.

(** A depth that is requested twice: its second file has no blocks, although the tree has nodes of that depth. *)
Theorem C71_repeated_depth_refuted :
  exists files text, save_levels Zc (with_depth 0 ex_info) [] [1; 1]%Z = Some files /\ nth_error files 1 = Some (list_ascii_of_string "1.csv", text) /\ read_csv text = Some [[5; 5]%Z] /\
    Datatypes.length (lev 1 ex_info) = 4.
Proof. eexists _, _. split; [vm_compute; reflexivity|]. split; [reflexivity|]. split; vm_compute; reflexivity. Qed.

(** The 5 x 5 matrix of P_Info.v. *)
Example ex_leaves_file :
  option_map (fun f => string_of_list_ascii (snd f)) (save_leaves_with_rank Zc ex_info (list_ascii_of_string "out")) =
    Some ("5,5
0,2,0,2,-1
0,2,2,3,1
2,3,0,2,2
2,3,2,3,-1
").
Proof. vm_compute. reflexivity. Qed.
Example ex_levels_files :
  option_map (map (fun f => (string_of_list_ascii (fst f), read_csv (snd f)))) (save_levels Zc (with_depth 0 ex_info) (list_ascii_of_string "l_") [1; 0; -1]%Z) =
    Some [("l_0.csv", Some [[5; 5]; [0; 2; 0; 2; -1]; [0; 2; 2; 3; 1]; [2; 3; 0; 2; 2]; [2; 3; 2; 3; -1]]%Z); ("l_1.csv", Some [[5; 5]; [0; 5; 0; 5; -1]]%Z); ("l_2.csv", Some [[5; 5]]%Z)].
Proof. vm_compute. reflexivity. Qed.
Example ex_first_at : first_at [1; 0; -1]%Z 2 /\ ~ first_at [1; 1]%Z 1.
Proof. split; [intros [|[|q]] H; cbn; lia|]. intros H. apply (H 0); [lia|reflexivity]. Qed.
