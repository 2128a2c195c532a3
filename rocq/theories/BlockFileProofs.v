(** * Proofs about the files of blocks. *)

From Coq Require Import Ascii List Arith Bool ZArith Lia Permutation.
From Verif Require Import ClusterModel ClusterSpec IOModel IOSpec IOProofs P_IO BlockModel BlockSpec BlockSym Algebra BlasModel HMatModel HMatSpec DistModel InfoModel BlockFileModel BlockFileSpec.
Import ListNotations.
Local Open Scope nat_scope.

Lemma lines_sep : forall c (ls : list str), concat (map (fun s => s ++ [c]) ls) = sep_by c (ls ++ [[]]).
Proof.
  intros c. induction ls as [|s ls IH]; [reflexivity|]. cbn [map concat app]. rewrite IH. destruct ls as [|t ls]; cbn [app sep_by]; rewrite <- app_assoc; reflexivity.
Qed.
Lemma all_ints_Z : forall l, all_ints (map print_Z l) = Some l.
Proof. induction l as [|z l IH]; cbn [map all_ints]; [reflexivity|]. rewrite stoi_print_Z, IH. reflexivity. Qed.
Lemma read_line_Z : forall z l, read_line (sep_by ","%char (map print_Z (z :: l))) = Some (z :: l).
Proof.
  intros z l. unfold read_line. cbn [map]. rewrite split_sep.
  - change (print_Z z :: map print_Z l) with (map print_Z (z :: l)). apply all_ints_Z.
  - intros t Ht. change (print_Z z :: map print_Z l) with (map print_Z (z :: l)) in Ht. apply in_map_iff in Ht. destruct Ht as (w & <- & _). apply (print_Z_clean w).
Qed.
Lemma print_Z_nat : forall n, print_Z (Z.of_nat n) = print_nat n.
Proof. intros n. unfold print_Z. destruct (Z.of_nat n <? 0)%Z eqn:E; [apply Z.ltb_lt in E; lia|]. rewrite Nat2Z.id. reflexivity. Qed.
Lemma print_Z_cons : forall z, print_Z z <> [].
Proof. intros z. unfold print_Z. destruct (z <? 0)%Z; [discriminate|apply print_nat_nonempty]. Qed.

Definition ztext (l : list Z) : str := sep_by ","%char (map print_Z l).
Lemma ztext_nonempty : forall z l, ztext (z :: l) <> [].
Proof.
  intros z l. unfold ztext. cbn [map]. destruct (map print_Z l) as [|s t]; cbn [sep_by]; [apply print_Z_cons|]. intros E. apply app_eq_nil in E. destruct E as [_ E]. discriminate.
Qed.
Lemma ztext_no_newline : forall l, ~ In newline (ztext l).
Proof.
  unfold ztext. induction l as [|z l IH]; [intros []|]. cbn [map]. destruct (map print_Z l) as [|s t] eqn:E; cbn [sep_by].
  - apply (print_Z_clean z).
  - intros H. apply in_app_iff in H. destruct H as [H|H]; [apply (print_Z_clean z) in H; exact H|]. destruct H as [H|H]; [discriminate|]. apply IH. exact H.
Qed.
Lemma all_lines_Z : forall ls, (forall l, In l ls -> l <> []) -> all_lines (filter (fun s : str => match s with [] => false | _ => true end) (map ztext ls)) = Some ls.
Proof.
  induction ls as [|l ls IH]; intros H; [reflexivity|]. cbn [map filter]. destruct l as [|z l]; [exfalso; apply (H []); [left; reflexivity|reflexivity]|].
  pose proof (ztext_nonempty z l) as N. destruct (ztext (z :: l)) as [|a s] eqn:E; [congruence|]. rewrite <- E. cbn [all_lines]. unfold ztext at 1. rewrite read_line_Z.
  rewrite IH; [reflexivity|]. intros l' Hl. apply H. right; exact Hl.
Qed.
(** Lines of integers, and blank lines at the end, are read back. *)
Lemma read_csv_Z : forall l ls, l <> [] -> (forall l', In l' ls -> l' <> []) -> forall n,
  read_csv (concat (map (fun s => s ++ [newline]) (map ztext (l :: ls) ++ repeat [] n))) = Some (l :: ls).
Proof.
  intros l ls Hl Hls n. unfold read_csv. rewrite lines_sep. cbn [map app]. rewrite split_sep.
  - change (ztext l :: (map ztext ls ++ repeat [] n) ++ [[]]) with ((ztext l :: map ztext ls ++ repeat [] n) ++ [[]]). rewrite filter_app. cbn [filter]. rewrite app_nil_r.
    change (ztext l :: map ztext ls ++ repeat [] n) with (map ztext (l :: ls) ++ repeat [] n). rewrite filter_app.
    replace (filter (fun s : str => match s with [] => false | _ => true end) (repeat [] n)) with (@nil str) by (clear; induction n; [reflexivity|exact IHn]).
    rewrite app_nil_r. apply (all_lines_Z (l :: ls)). intros l' [<-|H]; [exact Hl|apply Hls, H].
  - intros t Ht. change (ztext l :: (map ztext ls ++ repeat [] n) ++ [[]]) with (map ztext (l :: ls) ++ repeat [] n ++ [[]]) in Ht || idtac.
    destruct Ht as [<-|Ht]; [apply ztext_no_newline|]. apply in_app_iff in Ht. destruct Ht as [Ht|[<-|[]]]; [|intros []].
    apply in_app_iff in Ht. destruct Ht as [Ht|Ht]; [apply in_map_iff in Ht; destruct Ht as (w & <- & _); apply ztext_no_newline|apply repeat_spec in Ht; subst t; intros []].
Qed.

Section P.
  Variable K : Coef.
  Notation hmat := (rtree (hinfo K)).

  Lemma display_line : forall r h : hinfo K, display_text (display_of K r h) = ztext (block_line r h).
  Proof. intros r h. unfold display_text, display_of, ztext, block_line. cbn [map sep_by dp_toff dp_soff dp_tsize dp_ssize dp_value app]. unfold get_rank. rewrite <- ?app_assoc. reflexivity. Qed.
  Lemma header_line : forall r : hinfo K, header_text K r = ztext (first_line r) ++ [newline].
  Proof. intros r. unfold header_text, ztext, first_line. cbn [map sep_by app]. rewrite !print_Z_nat, <- !app_assoc. reflexivity. Qed.
  Lemma blocks_lines : forall (r : hinfo K) l, blocks_text (map (display_of K r) l) = concat (map (fun s => s ++ [newline]) (map ztext (map (block_line r) l))).
  Proof.
    intros r l. unfold blocks_text.
    assert (G : forall l acc, fold_left (fun out b => out ++ display_text b ++ [newline]) (map (display_of K r) l) acc = acc ++ concat (map (fun s => s ++ [newline]) (map ztext (map (block_line r) l)))).
    { clear l. induction l as [|h l IH]; intros acc; cbn [map fold_left concat]; [rewrite app_nil_r; reflexivity|]. rewrite IH, display_line, <- !app_assoc. reflexivity. }
    apply (G l []).
  Qed.
  Lemma file_text : forall (r : hinfo K) l n, read_csv (header_text K r ++ blocks_text (map (display_of K r) l) ++ repeat newline n) = Some (first_line r :: map (block_line r) l).
  Proof.
    intros r l n. rewrite header_line, blocks_lines. rewrite <- (read_csv_Z (first_line r) (map (block_line r) l)) with (n := n).
    - f_equal. rewrite map_app, concat_app. cbn [map concat]. rewrite <- !app_assoc. do 2 f_equal. f_equal. clear. induction n as [|n IH]; [reflexivity|]. cbn [repeat map concat app]. rewrite <- IH. reflexivity.
    - discriminate.
    - intros l' H. apply in_map_iff in H. destruct H as (h & <- & _). discriminate.
  Qed.

  Lemma push_leaves : forall (r : hinfo K) (l : list hmat) acc,
    fold_left (fun out h => if is_leaf K h then out ++ [display_of K r (rt_val h)] else out) l acc =
    acc ++ map (display_of K r) (map rt_val (filter (fun u => match rt_children u with [] => true | _ => false end) l)).
  Proof.
    intros r. induction l as [|h l IH]; intros acc; cbn [fold_left filter map]; [rewrite app_nil_r; reflexivity|]. rewrite IH. unfold is_leaf. destruct (rt_children h); [|reflexivity].
    cbn [map]. rewrite <- app_assoc. reflexivity.
  Qed.

  (** *** The leaves in preorder are those of get_leaves_from *)
  Lemma leaves_of_node : forall (i : hinfo K) cs, leaves_of (RNode i cs) = match cs with [] => [i] | _ => concat (map leaves_of cs) end.
  Proof.
    intros i cs. unfold leaves_of at 1. rewrite preorder_eq. cbn [filter rt_children]. destruct cs as [|c cs]; [reflexivity|]. clear. generalize (c :: cs). clear. intros l.
    unfold leaves_of. induction l as [|d l IH]; [reflexivity|]. cbn [map concat]. rewrite filter_app, map_app, IH. reflexivity.
  Qed.
  Lemma hleaves_run_perm : forall f (stack : list (hmat * bool)) lv ys L Y, hleaves_run K f stack lv ys = Some (L, Y) ->
    Permutation L (lv ++ concat (map (fun p => leaves_of (fst p)) stack)).
  Proof.
    induction f as [|f IH]; intros stack lv ys L Y H.
    - destruct stack as [|[b anc] st]; [|discriminate]. cbn in H. injection H as <- <-. cbn. rewrite app_nil_r. reflexivity.
    - destruct stack as [|[b anc] st]; [cbn in H; injection H as <- <-; cbn; rewrite app_nil_r; reflexivity|]. cbn [hleaves_run] in H.
      apply IH in H. cbn [map concat fst]. rewrite map_app, concat_app in H. destruct b as [i cs]. cbn [rt_val rt_children] in H. rewrite leaves_of_node.
      rewrite H. destruct cs as [|c cs].
      + cbn [map rev concat app]. rewrite <- app_assoc. reflexivity.
      + apply Permutation_app_head. apply Permutation_app_tail. rewrite map_rev, map_map. cbn [fst].
        generalize (c :: cs). clear. intros l. induction l as [|d l IHl]; [reflexivity|]. cbn [map rev]. rewrite concat_app. cbn [concat]. rewrite app_nil_r. rewrite Permutation_app_comm. cbn [concat].
        apply Permutation_app_head. exact IHl.
  Qed.
  Lemma hleaves_perm : forall (A : hmat) L Y, hleaves K A = Some (L, Y) -> Permutation L (leaves_of A).
  Proof. intros A L Y H. apply hleaves_run_perm in H. cbn [map concat fst app] in H. rewrite app_nil_r in H. exact H. Qed.

  Lemma count_perm : forall X (f : X -> bool) l l', Permutation l l' -> count f l = count f l'.
  Proof. intros X f l l' H. unfold count. induction H; cbn [filter]; [reflexivity| | |congruence]. - destruct (f x); cbn [length]; congruence. - destruct (f x), (f y); reflexivity. Qed.
  Lemma covers_line : forall (r h : hinfo K) i j,
    line_covers (Z.of_nat i - Z.of_nat (c_off (h_t r))) (Z.of_nat j - Z.of_nat (c_off (h_s r))) (block_line r h) = hcovers i j h.
  Proof.
    intros r h i j. unfold line_covers, block_line, hcovers, in_iv, interval. cbn [fst snd].
    apply eq_true_iff_eq. rewrite !andb_true_iff, !Z.leb_le, !Z.ltb_lt, !Nat.leb_le, !Nat.ltb_lt. unfold c_off, c_size in *. lia.
  Qed.
  Lemma count_lines : forall (r : hinfo K) i j l, count (line_covers (Z.of_nat i - Z.of_nat (c_off (h_t r))) (Z.of_nat j - Z.of_nat (c_off (h_s r)))) (map (block_line r) l) = count (hcovers i j) l.
  Proof.
    intros r i j l. unfold count. induction l as [|h l IH]; [reflexivity|]. cbn [map filter]. rewrite covers_line. destruct (hcovers i j h); cbn [length]; rewrite IH; reflexivity.
  Qed.

  (** *** Levels *)
  Lemma find_depth_some : forall d depths p, find_depth d depths = Some p ->
    p < length depths /\ (nth p depths 0 mod 4294967296 = Z.of_nat d)%Z /\ forall q, q < p -> (nth q depths 0 mod 4294967296 <> Z.of_nat d)%Z.
  Proof.
    intros d. induction depths as [|e l IH]; intros p H; [discriminate|]. cbn [find_depth] in H. destruct (e mod 4294967296 =? Z.of_nat d)%Z eqn:E.
    - injection H as <-. apply Z.eqb_eq in E. cbn [length nth]. split; [lia|]. split; [exact E|]. intros q Hq. lia.
    - destruct (find_depth d l) as [p'|]; [|discriminate]. injection H as <-. destruct (IH p' eq_refl) as (H1 & H2 & H3). cbn [length nth]. split; [lia|]. split; [exact H2|].
      intros [|q] Hq; [apply Z.eqb_neq; exact E|]. apply H3. lia.
  Qed.
  Lemma find_depth_none : forall d depths, find_depth d depths = None -> forall q, q < length depths -> (nth q depths 0 mod 4294967296 <> Z.of_nat d)%Z.
  Proof.
    intros d. induction depths as [|e l IH]; intros H q Hq; [cbn in Hq; lia|]. cbn [find_depth] in H. destruct (e mod 4294967296 =? Z.of_nat d)%Z eqn:E; [discriminate|].
    destruct (find_depth d l); [discriminate|]. destruct q as [|q]; [apply Z.eqb_neq; exact E|]. apply IH; [reflexivity|cbn in Hq; lia].
  Qed.
  Lemma push_at_nth : forall b l n p, nth p (push_at n b l) [] = if (p =? n) && (n <? length l) then nth p l [] ++ [b] else nth p l [].
  Proof.
    intros b. induction l as [|x l IH]; intros n p.
    - replace (n <? length (@nil (list display))) with false by (symmetry; apply Nat.ltb_ge; cbn; lia). rewrite andb_false_r. destruct n; reflexivity.
    - destruct n as [|n], p as [|p]; cbn [push_at nth Nat.eqb andb length]; try reflexivity. rewrite IH. reflexivity.
  Qed.
  Lemma push_at_length : forall b l n, length (push_at n b l) = length l.
  Proof. intros b. induction l as [|x l IH]; intros [|n]; cbn [push_at length]; try reflexivity. rewrite IH. reflexivity. Qed.
  Lemma levels_fold : forall (r : hinfo K) depths p, p < length depths -> forall (l : list (rtree (hinfo K * nat))) out, length out = length depths ->
    nth p (fold_left (fun out h => match find_depth (snd (rt_val h)) depths with Some index => push_at index (display_of K r (fst (rt_val h))) out | None => out end) l out) [] =
    nth p out [] ++ map (display_of K r) (map (fun u => fst (rt_val u)) (filter (fun u => match find_depth (snd (rt_val u)) depths with Some q => q =? p | None => false end) l)).
  Proof.
    intros r depths p Hp. induction l as [|h l IH]; intros out Ho; cbn [fold_left filter map]; [rewrite app_nil_r; reflexivity|].
    destruct (find_depth (snd (rt_val h)) depths) as [q|] eqn:E; [|apply IH, Ho]. rewrite IH by (rewrite push_at_length; exact Ho). rewrite push_at_nth. apply find_depth_some in E. destruct E as [E _].
    rewrite (Nat.eqb_sym p q). destruct (q =? p) eqn:Q; cbn [andb]; [|reflexivity]. replace (q <? length out) with true by (symmetry; apply Nat.ltb_lt; lia). cbn [map]. rewrite <- app_assoc. reflexivity.
  Qed.

  Lemma pre_depth : forall X (t : rtree X) d u, In u (preorder (with_depth d t)) -> d <= snd (rt_val u).
  Proof.
    intros X. induction t as [a ts IH] using rtree_ind'. intros d u H. cbn [with_depth] in H. rewrite preorder_eq in H. destruct H as [<-|H]; [cbn; lia|]. cbn [rt_children] in H.
    apply in_concat in H. destruct H as (l & Hl & Hu). rewrite map_map in Hl. apply in_map_iff in Hl. destruct Hl as (c & <- & Hc). pose proof (IH c Hc (S d) u Hu). lia.
  Qed.
  Lemma filter_none : forall X (f : X -> bool) l, (forall x, In x l -> f x = false) -> filter f l = [].
  Proof. intros X f. induction l as [|x l IH]; intros H; [reflexivity|]. cbn [filter]. rewrite (H x (or_introl eq_refl)). apply IH. intros y Hy. apply H. right; exact Hy. Qed.
  (** The nodes whose stored depth is d + j are those j levels below the root. *)
  Lemma level_filter : forall X (t : rtree X) d j, map (fun u => fst (rt_val u)) (filter (fun u => snd (rt_val u) =? d + j) (preorder (with_depth d t))) = map rt_val (lev j t).
  Proof.
    intros X. induction t as [a ts IH] using rtree_ind'. intros d j. cbn [with_depth]. rewrite preorder_eq. cbn [filter rt_val snd]. destruct j as [|j].
    - replace (d =? d + 0) with true by (symmetry; apply Nat.eqb_eq; lia). cbn [map lev rt_val fst]. f_equal. rewrite filter_none; [reflexivity|]. intros u Hu. cbn [rt_children] in Hu.
      apply in_concat in Hu. destruct Hu as (l & Hl & Hu). rewrite map_map in Hl. apply in_map_iff in Hl. destruct Hl as (c & <- & Hc). pose proof (pre_depth _ c (S d) u Hu). apply Nat.eqb_neq. lia.
    - replace (d =? d + S j) with false by (symmetry; apply Nat.eqb_neq; lia). cbn [rt_children lev]. clear a. induction ts as [|c ts IHt]; [reflexivity|]. cbn [map concat]. rewrite filter_app, !map_app.
      rewrite IHt by (intros c' Hc; apply IH; right; exact Hc). f_equal. rewrite <- (IH c (or_introl eq_refl) (S d) j). f_equal. apply filter_ext. intros u. f_equal. lia.
  Qed.
End P.
