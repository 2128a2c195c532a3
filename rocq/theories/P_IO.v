(** * Properties C09, C10, C11, C13, C45: traversals, text and binary files, depths of the leaves.

    Vocabulary: IOModel.v (model), IOSpec.v and ClusterSpec.v (specification). *)

From Coq Require Import String.
From Coq Require Import List Arith ZArith Bool Ascii Lia Permutation.
From Verif Require Import ClusterModel ClusterSpec ClusterProofs ClusterPartition ClusterMore ClusterFinal IOModel IOSpec
  IOProofs ClusterIO ClusterDepth P_Cluster.
Import ListNotations.
Open Scope list_scope.

(** C13.  The loop with the explicit stack visits the nodes in preorder and stops after one step per node. *)
Theorem C13_preorder :
  forall A (t : rtree A) fuel, length (preorder t) <= fuel -> preorder_run fuel [t] [] = Some (preorder t).
Proof. intros A t fuel H. eapply preorder_run_mono; [apply preorder_run_ok|exact H]. Qed.
Print Assumptions C13_preorder.

(** Every node once (a rearrangement of the preorder), and when a node is visited all its proper descendants have
    been visited. *)
Theorem C13_postorder :
  forall A (t : rtree A),
    Permutation (postorder_visits t) (preorder t) /\
    forall l1 u l2, postorder_visits t = l1 ++ u :: l2 ->
      forall c v, In c (rt_children u) -> In v (preorder c) -> In v l1.
Proof.
  intros A t. split; [apply postorder_perm|].
  induction t as [a ts IH] using rtree_ind'. intros l1 u l2 E c v Hc Hv. cbn [postorder_visits] in E.
  destruct l2 as [|x l2] using rev_ind.
  - change (l1 ++ [u]) with (l1 ++ [u]) in E. apply app_inj_tail in E. destruct E as [<- <-].
    cbn [rt_children] in Hc. apply in_concat. exists (postorder_visits c). split; [apply in_map, Hc|].
    apply (Permutation_in _ (Permutation_sym (postorder_perm A c))). exact Hv.
  - clear IHl2. rewrite app_comm_cons, app_assoc in E. apply app_inj_tail in E. destruct E as [E _].
    clear x. revert l1 E. induction ts as [|t ts IHts]; intros l1 E.
    + destruct l1; discriminate.
    + cbn [map concat] in E.
      assert (Hcase : (exists l2', postorder_visits t = l1 ++ u :: l2') \/
                      (exists l1', l1 = postorder_visits t ++ l1' /\ concat (map postorder_visits ts) = l1' ++ u :: l2)).
      { clear - E. revert l1 E. generalize (postorder_visits t) as p. induction p as [|y p IHp]; intros l1 E.
        - right. exists l1. auto.
        - destruct l1 as [|z l1]; cbn [app] in E; injection E as Ey E.
          + left. exists p. subst. reflexivity.
          + destruct (IHp l1 E) as [(l2' & ->)|(l1' & -> & E')].
            * left. exists l2'. subst. reflexivity.
            * right. exists l1'. subst. auto. }
      destruct Hcase as [(l2' & E')|(l1' & -> & E')].
      * eapply (IH t (or_introl eq_refl)); eauto.
      * apply in_or_app. right. apply IHts; [|exact E']. intros t' Ht'. apply IH. right; exact Ht'.
Qed.
Print Assumptions C13_postorder.

(** C10.  Joining tokens without the delimiter and splitting again. *)
Theorem C10_split_join :
  forall c s l, s <> [] -> (forall t, In t (s :: l) -> ~ In c t) ->
    join [c] (s :: l) = sep_by c (s :: l) /\ split (join [c] (s :: l)) [c] = Some (s :: l).
Proof.
  intros c s l Hs H. split; [apply join_sep, Hs|]. rewrite join_sep by exact Hs. apply split_sep, H.
Qed.
Print Assumptions C10_split_join.

(** split alone: it always returns for a non-empty delimiter of any length. *)
Theorem C10_split_total : forall s d, d <> [] -> exists l, split s d = Some l.
Proof. intros s d Hd. pose proof (split_total s d Hd). destruct (split s d); [eauto|congruence]. Qed.
Print Assumptions C10_split_total.

(** Leading empty tokens and their delimiters are lost. *)
Theorem C10_leading_empty : forall d l, join d ([] :: l) = join d l.
Proof. exact join_skip_empty. Qed.
Print Assumptions C10_leading_empty.

(** With an empty delimiter the loop of split never stops. *)
Theorem C10_empty_delimiter : forall fuel s, split_fuel fuel s [] [] = None.
Proof. intros. apply split_empty_delim. Qed.
Print Assumptions C10_empty_delimiter.

(** For delimiters of two characters "delimiter-free tokens" is not enough. *)
Theorem C10_two_characters_refuted : exists d s l,
  length d = 2 /\ s <> [] /\ (forall t, In t (s :: l) -> find_sub d t = None) /\ split (join d (s :: l)) d <> Some (s :: l).
Proof.
  exists ["a"; "a"]%char, ["x"; "a"]%char, [["y"]%char]. repeat split; try discriminate.
  intros t [<-|[<-|[]]]; reflexivity.
Qed.
Print Assumptions C10_two_characters_refuted.

(** Delimiters of any length: when the first occurrence of the delimiter in "token delimiter" is the one that follows the token
    (this is where two-character delimiters can fail, see the previous theorem), splitting recovers the tokens. *)
Definition separates (d t : str) : Prop := find_sub d (t ++ d) = Some (length t).
Lemma prefix_app : forall d r, is_prefix d (d ++ r) = true.
Proof. induction d as [|a d IH]; intros r; [reflexivity|]. cbn [app is_prefix]. rewrite Ascii.eqb_refl. apply IH. Qed.
Lemma prefix_long : forall d s r, length d <= length s -> is_prefix d (s ++ r) = is_prefix d s.
Proof.
  induction d as [|a d IH]; intros s r H; [destruct s; reflexivity|]. destruct s as [|b s]; [cbn in H; lia|]. cbn [app is_prefix]. f_equal. apply IH. cbn in H. lia.
Qed.
Lemma find_separated : forall d t r, d <> [] -> separates d t -> find_sub d (t ++ d ++ r) = Some (length t).
Proof.
  intros d t r Hd. unfold separates. induction t as [|a t IH]; intros H.
  - cbn [app length]. destruct (d ++ r) as [|x y] eqn:E; [destruct d; [congruence|discriminate]|]. cbn [find_sub]. rewrite <- E, prefix_app. reflexivity.
  - cbn [app find_sub length] in H |- *. change (a :: t ++ d) with ((a :: t) ++ d) in H. change (a :: t ++ d ++ r) with ((a :: t) ++ d ++ r).
    rewrite app_assoc. rewrite prefix_long by (rewrite app_length; lia). destruct (is_prefix d ((a :: t) ++ d)); [discriminate H|].
    destruct (find_sub d (t ++ d)) as [k|] eqn:E; [|discriminate H]. cbn in H. injection H as ->. rewrite IH by reflexivity. reflexivity.
Qed.
Lemma prefix_shorter : forall d s, length s < length d -> is_prefix d s = false.
Proof. induction d as [|a d IH]; intros s H; [cbn in H; lia|]. destruct s as [|b s]; [reflexivity|]. cbn [is_prefix]. rewrite IH by (cbn in H; lia). apply andb_false_r. Qed.
Lemma find_absent : forall d t, d <> [] -> separates d t -> find_sub d t = None.
Proof.
  intros d t Hd. unfold separates. induction t as [|a t IH]; intros H.
  - cbn [find_sub]. destruct d; [congruence|reflexivity].
  - cbn [app find_sub length] in H |- *. change (a :: t ++ d) with ((a :: t) ++ d) in H. destruct (is_prefix d (a :: t)) eqn:E.
    + exfalso. assert (length d <= length (a :: t)). { destruct (Nat.le_gt_cases (length d) (length (a :: t))); [assumption|]. rewrite prefix_shorter in E by lia. discriminate. }
      rewrite prefix_long in H by assumption. rewrite E in H. discriminate H.
    + destruct (is_prefix d ((a :: t) ++ d)); [discriminate H|]. destruct (find_sub d (t ++ d)) as [k|] eqn:E2; [|discriminate H]. cbn in H. injection H as ->. rewrite IH by reflexivity. reflexivity.
Qed.
Theorem C10_split_join_any_delimiter : forall d s l, d <> [] -> s <> [] -> (forall t, In t (s :: l) -> separates d t) ->
  join d (s :: l) = s ++ concat (map (fun t => d ++ t) l) /\ split (join d (s :: l)) d = Some (s :: l).
Proof.
  intros d s l Hd Hs H.
  assert (J : join d (s :: l) = s ++ concat (map (fun t => d ++ t) l)).
  { clear H. unfold join. cbn [fold_left]. revert s Hs. induction l as [|t l IH]; intros s Hs; [cbn; rewrite app_nil_r; reflexivity|].
    cbn [fold_left map concat]. destruct s as [|a s]; [congruence|]. rewrite IH by discriminate. rewrite <- !app_assoc. reflexivity. }
  split; [exact J|]. rewrite J. unfold split.
  assert (G : forall l s fuel elems, (forall t, In t (s :: l) -> separates d t) -> length l <= fuel ->
    split_fuel fuel (s ++ concat (map (fun t => d ++ t) l)) d elems = Some (elems ++ s :: l)).
  { clear - Hd. induction l as [|t l IH]; intros s fuel elems H Hf.
    - cbn [map concat]. rewrite app_nil_r. destruct fuel; cbn [split_fuel]; rewrite (find_absent d s Hd) by (apply H; left; reflexivity); reflexivity.
    - cbn [length] in Hf. destruct fuel as [|fuel]; [lia|]. cbn [map concat split_fuel]. rewrite <- app_assoc, (find_separated d s _ Hd) by (apply H; left; reflexivity).
      rewrite firstn_app, firstn_all, Nat.sub_diag, firstn_O, app_nil_r. rewrite app_assoc, skipn_app.
      rewrite (skipn_all2 (s ++ d)) by (rewrite app_length; lia). rewrite app_length, Nat.sub_diag, skipn_O. cbn [app].
      rewrite IH; [|intros q Hq; apply H; right; exact Hq|lia]. rewrite <- app_assoc. reflexivity. }
  apply (G l s _ []); [exact H|]. rewrite app_length. clear - Hd. induction l as [|t l IH]; [cbn; lia|]. cbn [map concat length]. rewrite !app_length. destruct d; [congruence|]. cbn [length]. lia.
Qed.
Print Assumptions C10_split_join_any_delimiter.
Example C10_any_delimiter_hyps : forall t, In t (map list_ascii_of_string ["ab"; ""; "a:b"; ":c"]%string) -> separates (list_ascii_of_string "::") t.
Proof. intros t H. cbn in H. repeat (destruct H as [<-|H]; [vm_compute; reflexivity|]). contradiction. Qed.

Example ex_split : split (list_ascii_of_string "a,,bc,") [","%char] =
  Some [list_ascii_of_string "a"; []; list_ascii_of_string "bc"; []].
Proof. reflexivity. Qed.

(** C11.  Any element type of fixed size whose object representation determines the value. *)
Theorem C11_vector_round_trip :
  forall A w (enc : A -> list byte) (dec : list byte -> A),
    (forall a, length (enc a) = w) -> (forall a, dec (enc a) = a) ->
    forall fill v, (Z.of_nat (length v) < 2 ^ 31)%Z ->
      bytes_to_vector A w dec fill (vector_to_bytes A enc v) = Some v.
Proof. exact vector_round_trip. Qed.
Print Assumptions C11_vector_round_trip.

Theorem C11_matrix_round_trip :
  forall A w (enc : A -> list byte) (dec : list byte -> A),
    (forall a, length (enc a) = w) -> (forall a, dec (enc a) = a) ->
    forall fill rows cols data, length data = rows * cols ->
      (Z.of_nat rows < 2 ^ 31)%Z -> (Z.of_nat cols < 2 ^ 31)%Z -> (Z.of_nat (rows * cols) < 2 ^ 31)%Z ->
      bytes_to_matrix A w dec fill (matrix_to_bytes A enc rows cols data) = Some (rows, cols, data).
Proof. exact matrix_round_trip. Qed.
Print Assumptions C11_matrix_round_trip.

(** The hypotheses are met by 4-byte integers; and a truncated file is read without any sign of failure. *)
Definition enc_u32 (x : Z) : list byte := int_bytes x.
Example ex_bytes : bytes_to_vector Z 4 bytes_int 0%Z (vector_to_bytes Z enc_u32 [5; 70000; 2147483647; 0]%Z)
  = Some [5; 70000; 2147483647; 0]%Z.
Proof. reflexivity. Qed.

Theorem C11_truncated_refuted : exists v file, file = removelast (vector_to_bytes Z enc_u32 v) /\
  exists v', bytes_to_vector Z 4 bytes_int 0%Z file = Some v' /\ v' <> v.
Proof.
  exists [5; 2147483647]%Z. eexists. split; [reflexivity|]. eexists. split; [reflexivity|]. discriminate.
Qed.
Print Assumptions C11_truncated_refuted.

(** C09.  Any tree: [dp] is the depth of the partition, [maxd] the maximal depth; the nodes at depth [dp] have the ranks
    0,1,2,... in order.  The numbers are printed and parsed back; only the coordinates go through [fmt] and [prs]. *)
Theorem C09_save_read_tree :
  forall R (fmt : R -> str) (prs : str -> R), (forall r, clean (fmt r)) ->
  forall dp maxd dim t,
    lev (S maxd) t = [] -> 0 < dp ->
    in_counter R (rt_val t) = 0 ->
    (forall u, In u (preorder t) -> length (in_center R (rt_val u)) = dim) ->
    map (fun u => in_rank R (rt_val u)) (lev dp t) = map Z.of_nat (seq 0 (length (lev dp t))) ->
    exists text, save_tree R fmt dp maxd t = Some text /\
      read_tree R prs (length (preorder t)) text =
        Some (rmap (regeo fmt prs) t, map (fun u => Some (regeo fmt prs (rt_val u))) (lev dp t)).
Proof. exact save_read. Qed.
Print Assumptions C09_save_read_tree.

(** The trees made by create_cluster_tree without ERROR satisfy the hypotheses. *)
Theorem C09_built_trees :
  forall R (fmt : R -> str) (prs : str -> R) (geo : cinfo -> R * list R) dim,
  (forall r, clean (fmt r)) ->
  forall sorter strat P fuel s t loc,
    sorter_ok sorter -> 1 <= bp_nc P -> 1 <= bp_sp P ->
    (bp_given P = None -> bp_nc P <= bp_sp P -> 1 <= bp_logdepth P /\ bp_nc P ^ bp_logdepth P <= bp_sp P) ->
    (forall part, bp_given P = Some part -> part <> []) ->
    cluster_tree sorter strat P fuel = Some (s, t, loc) ->
    st_errors s = 0 ->
    (forall c, length (snd (geo c)) = dim) ->
    exists text, save_tree R fmt (part_depth P) (st_max s) (conv geo t) = Some text /\
      read_tree R prs (length (ct_nodes t)) text =
        Some (rmap (regeo fmt prs) (conv geo t),
              map (fun u => Some (regeo fmt prs (conv_info geo (ct_info u)))) (level (part_depth P) t)).
Proof. exact final_save_read. Qed.
Print Assumptions C09_built_trees.

(** The other file: minimal size, depths, permutation and locality. *)
Theorem C09_save_read_properties :
  forall minsize maxd mind perm loc, perm <> [] ->
    read_properties (length perm) (save_properties minsize maxd mind perm loc) = Some (minsize, maxd, mind, perm, loc).
Proof. exact properties_round_trip. Qed.
Print Assumptions C09_save_read_properties.

(** Without points the line of the permutation is not ended and the file cannot be read. *)
Theorem C09_empty_refuted : forall a b c loc, read_properties 0 (save_properties a b c [] loc) = None.
Proof.
  intros a b c loc. unfold save_properties, read_properties.
  set (b5 := print_nat (if loc then 1 else 0)).
  assert (T : lab1 ++ print_nat a ++ [newline] ++ lab2 ++ print_nat b ++ [newline] ++ lab3 ++ print_nat c ++ [newline] ++
      lab4 ++ [] ++ lab5 ++ b5 ++ [newline] =
    lines_text [lab1 ++ print_nat a; lab2 ++ print_nat b; lab3 ++ print_nat c; lab4 ++ lab5 ++ b5]).
  { unfold lines_text. cbn [map concat]. rewrite !app_nil_r. rewrite <- !app_assoc. reflexivity. }
  rewrite T. rewrite getlines_lines; [reflexivity|].
  assert (L : forall lab, In lab [lab1; lab2; lab3; lab4; lab5] -> ~ In newline lab).
  { intros lab H Hin. simpl in H.
    repeat (destruct H as [<-|H]; [vm_compute in Hin; repeat (destruct Hin as [Q|Hin]; [discriminate Q|]); exact Hin|]). exact H. }
  assert (N : forall n, ~ In newline (print_nat n)) by (intros n; apply print_nat_clean).
  intros l Hl Hin. cbn [In] in Hl. unfold b5 in *.
  repeat (destruct Hl as [<-|Hl];
    [repeat (apply in_app_or in Hin; destruct Hin as [Hin|Hin]);
     solve [apply N in Hin; exact Hin | revert Hin; apply L; simpl; tauto]|]). exact Hl.
Qed.
Print Assumptions C09_empty_refuted.

(** The tree of the examples of P_Cluster.v, in dimension two, meets the hypotheses; coordinates are integers printed in
    decimal. *)
Definition ex_geo (c : cinfo) : Z * list Z := (Z.of_nat (ci_size c), [Z.of_nat (ci_off c); - Z.of_nat (ci_depth c)]%Z).
Definition ex_prs (s : str) : Z := match stoi s with Some z => z | None => 0%Z end.
Example ex_save_read : exists s t loc text, ex_tree = Some (s, t, loc) /\ st_errors s = 0 /\
  save_tree Z print_Z (part_depth exP) (st_max s) (conv ex_geo t) = Some text /\
  (exists pv, read_tree Z ex_prs (length (ct_nodes t)) text = Some (conv ex_geo t, pv) /\ length pv = 5).
Proof.
  destruct ex_tree as [[[s t] loc]|] eqn:E; [|vm_compute in E; discriminate].
  vm_compute in E. injection E as <- <- <-.
  do 3 eexists. eexists. split; [reflexivity|]. split; [reflexivity|]. split; [vm_compute; reflexivity|].
  eexists. split; [vm_compute; reflexivity|reflexivity].
Qed.

(** C45.  The depths stored with the tree are the extreme depths of its leaves, and the number of ERROR messages is the
    number of leaves above the partition. *)
Theorem C45_depths_of_leaves :
  forall sorter strat P fuel s t loc,
    (forall part, bp_given P = Some part -> part <> []) ->
    cluster_tree sorter strat P fuel = Some (s, t, loc) ->
    st_errors s = length (filter (fun u => (ci_rank (ct_info u) <? 0)%Z) (ct_leaves t)) /\
    (st_errors s = 0 ->
       (forall u, In u (ct_leaves t) -> ci_depth (ct_info u) <= st_max s) /\
       (exists u, In u (ct_leaves t) /\ ci_depth (ct_info u) = st_max s) /\
       (exists m, st_min s = Some m /\ (forall u, In u (ct_leaves t) -> m <= ci_depth (ct_info u)) /\
          exists u, In u (ct_leaves t) /\ ci_depth (ct_info u) = m)).
Proof.
  intros sorter strat P fuel s t loc Hne H.
  destruct (final_dres _ _ _ _ _ _ _ H Hne) as (Hmax & Hmin & Herr).
  cbn [init_state st_errors st_max st_min plus] in *.
  split.
  - rewrite Herr. unfold unranked. f_equal. apply filter_ext. intros u. unfold ranked. rewrite Z.ltb_antisym. reflexivity.
  - intros E0. rewrite E0 in Herr. symmetry in Herr. pose proof (proj1 (unranked_zero t) Herr) as Hr.
    destruct (final_depth_ok _ _ _ _ _ _ _ H) as [_ Hdep].
    destruct (nodes_leaf_below t t Hdep (In_nodes_root t)) as (v & Hv & _).
    assert (Hin : forall u, In u (ct_leaves t) -> In (ci_depth (ct_info u)) (leaf_depths t)).
    { intros u Hu. apply In_leaf_depths. exists u. auto. }
    assert (Hnn : leaf_depths t <> []). { intros Q. specialize (Hin v Hv). rewrite Q in Hin. exact Hin. }
    destruct (fold_max (leaf_depths t)) as [M1 M2].
    split; [intros u Hu; rewrite Hmax; apply M1, Hin, Hu|]. split.
    + specialize (M2 Hnn). rewrite <- Hmax in M2. apply In_leaf_depths in M2. destruct M2 as (u & Hu & _ & E).
      exists u. auto.
    + destruct (fold_min (leaf_depths t)) as [[Q _]|(m & E & Hm & Hle)]; [contradiction|].
      exists m. split; [rewrite Hmin; exact E|]. split; [intros u Hu; apply Hle, Hin, Hu|].
      apply In_leaf_depths in Hm. destruct Hm as (u & Hu & _ & Q). exists u. auto.
Qed.
Print Assumptions C45_depths_of_leaves.

Example ex_depths : exists s t loc, ex_tree = Some (s, t, loc) /\ st_errors s = 0 /\ st_max s = 3 /\ st_min s = Some 3.
Proof.
  destruct ex_tree as [[[s t] loc]|] eqn:E; [|vm_compute in E; discriminate].
  exists s, t, loc. vm_compute in E. injection E as <- <- <-. repeat split; reflexivity.
Qed.
