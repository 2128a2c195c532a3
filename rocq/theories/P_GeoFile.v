(** * Property C74: the file of a clustered geometry.  Vocabulary: GeoFileSpec.v (read_table), ClusterSpec.v (level, node_ok, depth_ok,
    interval, in_iv), BlockFileSpec.v (first_at). *)

From Coq Require Import Ascii String List Arith Bool ZArith Lia Permutation.
From Verif Require Import ClusterModel ClusterSpec ClusterProofs ClusterMore ClusterPartition ClusterFinal ClusterDepth ClusterIO IOModel IOSpec IOProofs P_Cluster BlockModel Algebra BlasModel HMatModel DistModel BlockFileModel BlockFileSpec BlockFileProofs GeoFileModel GeoFileSpec.
Import ListNotations.
Local Open Scope list_scope.
Local Open Scope nat_scope.

(** ** The text *)
Lemma print_values_sep : forall V (p : V -> str) l, print_values p l = sep_by ","%char (map p l).
Proof.
  intros V p l. unfold print_values.
  assert (G : forall l k n, n = k + length l -> concat (map (fun iv => p (snd iv) ++ (if fst iv =? n - 1 then [] else [","%char])) (combine (seq k (length l)) l)) = sep_by ","%char (map p l)).
  { clear. induction l as [|v l IH]; intros k n Hn; [reflexivity|]. cbn [length] in *. cbn [seq combine map concat fst snd]. rewrite (IH (S k) n) by lia. destruct l as [|w l].
    - cbn [length] in Hn. replace (k =? n - 1) with true by (symmetry; apply Nat.eqb_eq; lia). cbn [map sep_by]. rewrite !app_nil_r. reflexivity.
    - cbn [length] in Hn. replace (k =? n - 1) with false by (symmetry; apply Nat.eqb_neq; lia). cbn [map]. change (sep_by ","%char (p v :: p w :: map p l)) with (p v ++ ","%char :: sep_by ","%char (p w :: map p l)). rewrite <- app_assoc. reflexivity. }
  apply (G l 0). lia.
Qed.
Lemma cells_ok : forall rows : list (list str), (forall r, In r rows -> r <> []) -> (forall r s, In r rows -> In s r -> ~ In ","%char s) -> all_cells (map (sep_by ","%char) rows) = Some rows.
Proof.
  induction rows as [|r rows IH]; intros H1 H2; [reflexivity|]. cbn [map all_cells]. destruct r as [|s r]; [exfalso; apply (H1 []); [left; reflexivity|reflexivity]|].
  rewrite split_sep by (intros t Ht; apply (H2 (s :: r)); [left; reflexivity|exact Ht]). rewrite IH; [reflexivity| |].
  - intros r' H. apply H1. right; exact H.
  - intros r' t H. apply H2. right; exact H.
Qed.
Lemma sep_by_in : forall c l x, In x (sep_by c l) -> x = c \/ exists s, In s l /\ In x s.
Proof.
  intros c. induction l as [|s l IH]; intros x H; [destruct H|]. destruct l as [|t l].
  - cbn [sep_by] in H. right. exists s. split; [left; reflexivity|exact H].
  - change (sep_by c (s :: t :: l)) with (s ++ c :: sep_by c (t :: l)) in H. apply in_app_iff in H. destruct H as [H|[H|H]]; [right; exists s; split; [left; reflexivity|exact H]|left; auto|].
    destruct (IH x H) as [E|(u & Hu & Hx)]; [left; exact E|right; exists u; split; [right; exact Hu|exact Hx]].
Qed.
Lemma table_ok : forall rows : list (list str), (forall r, In r rows -> r <> []) -> (forall r s, In r rows -> In s r -> ~ In ","%char s /\ ~ In newline s) ->
  read_table (lines_text (map (sep_by ","%char) rows)) = Some rows.
Proof.
  intros rows H1 H2. unfold read_table. rewrite getlines_lines.
  - apply cells_ok; [exact H1|]. intros r s Hr Hs. apply (H2 r s Hr Hs).
  - intros l Hl Q. apply in_map_iff in Hl. destruct Hl as (r & <- & Hr). apply sep_by_in in Q. destruct Q as [Q|(s & Hs & Q)]; [discriminate|]. apply (H2 r s Hr Hs). exact Q.
Qed.

(** ** Clusters of a level do not overlap *)
Fixpoint ordered (lo hi : nat) (l : list ctree) : Prop :=
  match l with
  | [] => lo <= hi
  | u :: l' => lo <= ci_off (ct_info u) /\ ordered (ci_off (ct_info u) + ci_size (ct_info u)) hi l'
  end.
Lemma ordered_le : forall l lo hi, ordered lo hi l -> lo <= hi.
Proof. induction l as [|u l IH]; intros lo hi H; [exact H|]. destruct H as [H1 H2]. apply IH in H2. lia. Qed.
Lemma ordered_weak : forall l lo lo' hi, lo' <= lo -> ordered lo hi l -> ordered lo' hi l.
Proof. intros [|u l] lo lo' hi Hl H; [cbn in *; lia|]. destruct H as [H1 H2]. split; [lia|exact H2]. Qed.
Lemma ordered_app : forall a b lo mid hi, ordered lo mid a -> ordered mid hi b -> ordered lo hi (a ++ b).
Proof.
  induction a as [|u a IH]; intros b lo mid hi H1 H2; [exact (ordered_weak b mid lo hi H1 H2)|]. destruct H1 as [H1 H1']. split; [exact H1|]. exact (IH b _ mid hi H1' H2).
Qed.
Lemma ordered_in : forall l lo hi u, ordered lo hi l -> In u l -> lo <= ci_off (ct_info u) /\ ci_off (ct_info u) + ci_size (ct_info u) <= hi.
Proof.
  induction l as [|v l IH]; intros lo hi u H Hu; [destruct Hu|]. destruct H as [H1 H2]. pose proof (ordered_le _ _ _ H2). destruct Hu as [<-|Hu]; [lia|]. specialize (IH _ _ u H2 Hu). lia.
Qed.
Lemma ordered_nth : forall l lo hi k k' u u', ordered lo hi l -> k < k' -> nth_error l k = Some u -> nth_error l k' = Some u' -> ci_off (ct_info u) + ci_size (ct_info u) <= ci_off (ct_info u').
Proof.
  induction l as [|v l IH]; intros lo hi k k' u u' H Hk Hu Hu'; [destruct k; discriminate|]. destruct H as [H1 H2]. destruct k' as [|k']; [lia|]. cbn [nth_error] in Hu'. destruct k as [|k].
  - injection Hu as <-. apply (ordered_in l _ hi u' H2). eapply nth_error_In, Hu'.
  - exact (IH _ hi k k' u u' H2 ltac:(lia) Hu Hu').
Qed.
Lemma level_ordered : forall d t, (forall u, In u (ct_nodes t) -> node_ok u /\ depth_ok u) ->
  ordered (ci_off (ct_info t)) (ci_off (ct_info t) + ci_size (ct_info t)) (level d t).
Proof.
  intros d t. induction t as [c ts IH] using ctree_ind'; intros H. destruct (Nat.eq_dec (ci_depth c) d) as [E|E].
  - rewrite level_self; [|intros u Hu; apply H, Hu|exact E]. cbn. lia.
  - rewrite level_above by exact E. cbn [ct_info]. destruct (proj1 (H _ (In_nodes_root _))) as [F|F]; cbn [ct_children ct_info] in F.
    + rewrite F. cbn. lia.
    + assert (G : forall l lo hi, (forall x, In x l -> In x ts) -> tiles lo hi (map interval l) -> ordered lo hi (concat (map (level d) l))).
      { induction l as [|x l IHl]; intros lo hi Hs T; cbn [map tiles] in *; [cbn; lia|]. unfold interval at 1 in T. destruct T as [T1 T2]. cbn [concat]. subst lo.
        eapply ordered_app; [apply (IH x (Hs x (or_introl eq_refl))); intros u Hu; apply H; eapply In_nodes_child; [apply Hs; left; reflexivity|exact Hu]|].
        apply IHl; [intros y Hy; apply Hs; right; exact Hy|exact T2]. }
      apply G; [auto|exact F].
Qed.

(** ** The labels *)
Lemma nth_rep : forall A (x d : A) n i, i < n -> nth i (repeat x n) d = x.
Proof. induction n as [|n IH]; intros i H; [lia|]. destruct i as [|i]; cbn [repeat nth]; [reflexivity|]. apply IH. lia. Qed.
Lemma fill_n_ok : forall l o n x, o + n <= length l -> exists l', fill_n l o n x = Some l' /\ length l' = length l /\
  forall i, nth i l' 0 = if in_iv i (o, n) then x else nth i l 0.
Proof.
  intros l o n x H. unfold fill_n. destruct (Nat.leb_spec (o + n) (length l)); [|lia]. eexists. split; [reflexivity|].
  assert (Lf : length (firstn o l) = o) by (rewrite firstn_length; lia).
  split; [rewrite !app_length, Lf, repeat_length, skipn_length; lia|]. intros i. unfold in_iv. cbn [fst snd]. destruct (Nat.leb_spec o i); cbn [andb].
  - destruct (Nat.ltb_spec i (o + n)).
    + rewrite app_nth2 by lia. rewrite Lf. rewrite app_nth1 by (rewrite repeat_length; lia). apply nth_rep; lia.
    + rewrite app_nth2 by lia. rewrite Lf, app_nth2 by (rewrite repeat_length; lia). rewrite repeat_length. rewrite <- (firstn_skipn (o + n) l) at 2. rewrite app_nth2 by (rewrite firstn_length; lia). f_equal. rewrite firstn_length. lia.
  - rewrite app_nth1 by lia. rewrite <- (firstn_skipn o l) at 2. rewrite app_nth1 by lia. reflexivity.
Qed.

Definition sel (depths : list Z) (p : nat) (u : ctree) : bool := match find_depth (ci_depth (ct_info u)) depths with Some q => q =? p | None => false end.
Lemma labels_ok : forall n depths ns, (forall u, In u ns -> ci_off (ct_info u) + ci_size (ct_info u) <= n) ->
  (forall p k k' u u' i, k <> k' -> nth_error (filter (sel depths p) ns) k = Some u -> nth_error (filter (sel depths p) ns) k' = Some u' -> in_iv i (interval u) = true -> in_iv i (interval u') = true -> False) ->
  exists outs cnt, fold_left (label_step depths) ns (Some (repeat (repeat 0 n) (length depths), repeat 0 (length depths))) = Some (outs, cnt) /\ length outs = length depths /\ length cnt = length depths /\
    forall p, p < length depths -> nth p cnt 0 = length (filter (sel depths p) ns) /\ length (nth p outs []) = n /\
      (forall k u i, nth_error (filter (sel depths p) ns) k = Some u -> in_iv i (interval u) = true -> nth i (nth p outs []) 0 = k) /\
      (forall i, (forall u, In u (filter (sel depths p) ns) -> in_iv i (interval u) = false) -> nth i (nth p outs []) 0 = 0).
Proof.
  intros n depths ns. induction ns as [|u ns IH] using rev_ind; intros Hb Hd.
  - eexists _, _. split; [reflexivity|]. split; [apply repeat_length|]. split; [apply repeat_length|]. intros p Hp. rewrite !nth_rep by exact Hp. split; [reflexivity|]. split; [apply repeat_length|].
    split; [intros [|k] v i H; discriminate|]. intros i _. destruct (Nat.lt_ge_cases i n); [apply nth_rep; assumption|apply nth_overflow; rewrite repeat_length; lia].
  - destruct IH as (outs & cnt & E & Lo & Lc & I).
    + intros v Hv. apply Hb. apply in_app_iff. left; exact Hv.
    + intros p k k' v v' i Hk Hv Hv'. apply (Hd p k k' v v' i Hk); rewrite filter_app, nth_error_app1; try assumption; apply nth_error_Some; congruence.
    + rewrite fold_left_app, E. cbn [fold_left label_step fst snd]. destruct (find_depth (ci_depth (ct_info u)) depths) as [q|] eqn:F.
      * pose proof (find_depth_some _ _ _ F) as (Hq & _ & _). destruct (I q Hq) as (I1 & I2 & I3 & I4).
        rewrite (nth_error_nth' outs []) by lia. rewrite (nth_error_nth' cnt 0) by lia. destruct (fill_n_ok (nth q outs []) (ci_off (ct_info u)) (ci_size (ct_info u)) (nth q cnt 0)) as (l' & El & Ll & Nl); [rewrite I2; apply Hb; apply in_app_iff; right; left; reflexivity|]. rewrite El.
        eexists _, _. split; [reflexivity|]. rewrite !list_set_length. split; [exact Lo|]. split; [exact Lc|]. intros p Hp. rewrite !list_set_nth by lia.
        assert (Fu : filter (sel depths p) [u] = if p =? q then [u] else []). { cbn [filter]. unfold sel. rewrite F. rewrite (Nat.eqb_sym p q). destruct (q =? p); reflexivity. }
        destruct (Nat.eqb_spec p q) as [->|Npq].
        -- rewrite filter_app, Fu. rewrite app_length. cbn [length]. split; [lia|]. split; [congruence|]. split.
           ++ intros k v i Hk Hi. rewrite Nl. fold (interval u). destruct (Nat.lt_ge_cases k (length (filter (sel depths q) ns))) as [L|L].
              ** rewrite nth_error_app1 in Hk by exact L. destruct (in_iv i (interval u)) eqn:Ei; [|apply (I3 k v i Hk Hi)]. exfalso. apply (Hd q k (length (filter (sel depths q) ns)) v u i); try assumption; [lia| |]; rewrite filter_app, Fu.
                 --- rewrite nth_error_app1 by exact L. exact Hk.
                 --- rewrite nth_error_app2 by lia. rewrite Nat.sub_diag. reflexivity.
              ** rewrite nth_error_app2 in Hk by exact L. destruct (k - length (filter (sel depths q) ns)) as [|m] eqn:Em; [|destruct m; discriminate]. injection Hk as ->. rewrite Hi. rewrite I1. lia.
           ++ intros i Hi. rewrite Nl. fold (interval u). rewrite (Hi u) by (apply in_app_iff; right; left; reflexivity). apply I4. intros v Hv. apply Hi. apply in_app_iff. left; exact Hv.
        -- rewrite filter_app, Fu, app_nil_r. apply I, Hp.
      * exists outs, cnt. split; [reflexivity|]. split; [exact Lo|]. split; [exact Lc|]. intros p Hp. assert (Fu : filter (sel depths p) [u] = []) by (cbn [filter]; unfold sel; rewrite F; reflexivity). rewrite filter_app, Fu, app_nil_r. apply I, Hp.
Qed.

Lemma all_some_map_ok : forall A B (g : A -> option B) (h : A -> B) l, (forall a, In a l -> g a = Some (h a)) -> all_some (map g l) = Some (map h l).
Proof. intros A B g h. induction l as [|a l IH]; intros H; [reflexivity|]. cbn [map all_some]. rewrite (H a (or_introl eq_refl)). rewrite IH by (intros x Hx; apply H; right; exact Hx). reflexivity. Qed.

(** C74.  The file has one line per coordinate, with the points in the order of the permutation, and one line per requested depth,
    with the number of the cluster of that depth (in preorder) that contains the point; the points that are in no cluster of that
    depth have the number 0, as have all the points for a depth that was already requested. *)
Theorem C74_clustered_geometry :
  forall X (fmt : X -> str) (t : ctree) perm dim (x0 : list X) name depths,
    (forall x, In x x0 -> ~ In ","%char (fmt x) /\ ~ In newline (fmt x)) ->
    perm <> [] -> (forall p, In p perm -> dim * p + dim <= length x0) ->
    (forall u, In u (ct_nodes t) -> node_ok u /\ depth_ok u) ->
    ci_off (ct_info t) + ci_size (ct_info t) <= length perm ->
    (forall d, In d depths -> (0 <= d < 4294967296)%Z) ->
    exists text coords labels,
      save_clustered_geometry X fmt t perm dim x0 name depths = Some (name ++ list_ascii_of_string ".csv", text) /\
      read_table text = Some (map (fun d => (list_ascii_of_string "x_" ++ print_nat d) :: map fmt (nth d coords [])) (seq 0 dim) ++
                              map (fun p => print_Z (nth p depths 0%Z) :: map print_nat (nth p labels [])) (seq 0 (length depths))) /\
      (forall d, d < dim -> length (nth d coords []) = length perm /\
         forall i, i < length perm -> nth_error (nth d coords []) i = nth_error x0 (dim * nth i perm 0 + d)) /\
      forall p, p < length depths -> length (nth p labels []) = length perm /\
        let d := Z.to_nat (nth p depths 0%Z) in
        (first_at depths p -> forall k u i, nth_error (level d t) k = Some u -> in_iv i (interval u) = true -> nth i (nth p labels []) 0 = k) /\
        (forall i, (first_at depths p -> forall u, In u (level d t) -> in_iv i (interval u) = false) -> nth i (nth p labels []) 0 = 0).
Proof.
  intros X fmt t perm dim x0 name depths Hf Hp Hx Ht Hn Hd.
  assert (Hm : forall q, q < length depths -> (nth q depths 0 mod 4294967296 = nth q depths 0)%Z) by (intros q Hq; apply Z.mod_small; apply Hd; apply nth_In; exact Hq).
  assert (S1 : forall p, p < length depths -> first_at depths p -> filter (sel depths p) (ct_nodes t) = level (Z.to_nat (nth p depths 0%Z)) t).
  { intros p Hp' H. unfold level. apply filter_ext. intros u. unfold sel. assert (0 <= nth p depths 0)%Z by (apply Hd, nth_In; exact Hp'). destruct (find_depth (ci_depth (ct_info u)) depths) as [q|] eqn:E.
    - apply find_depth_some in E. destruct E as (E1 & E2 & E3). rewrite Hm in E2 by exact E1. apply eq_true_iff_eq. rewrite !Nat.eqb_eq. split; [intros ->; lia|]. intros Q.
      destruct (lt_eq_lt_dec p q) as [[L|L]|L]; [|symmetry; exact L|].
      + exfalso. apply (E3 p L). rewrite Hm by exact Hp'. lia.
      + exfalso. apply (H q L). lia.
    - symmetry. apply Nat.eqb_neq. intros Q. apply (find_depth_none _ _ E p Hp'). rewrite Hm by exact Hp'. lia. }
  assert (S2 : forall p, p < length depths -> ~ first_at depths p -> filter (sel depths p) (ct_nodes t) = []).
  { intros p Hp' H. apply filter_none. intros u _. unfold sel. destruct (find_depth (ci_depth (ct_info u)) depths) as [q|] eqn:E; [|reflexivity]. apply Nat.eqb_neq. intros ->.
    apply find_depth_some in E. destruct E as (E1 & E2 & E3). apply H. intros q Hq Q. apply (E3 q Hq). rewrite Hm by lia. rewrite Q, <- E2. symmetry. apply Hm, Hp'. }
  assert (Fd : forall p, first_at depths p \/ ~ first_at depths p).
  { intros p. unfold first_at. assert (G : forall m, (forall q, q < m -> nth q depths 0%Z <> nth p depths 0%Z) \/ exists q, q < m /\ nth q depths 0%Z = nth p depths 0%Z).
    { induction m as [|m [IH|(q & H1 & H2)]]; [left; intros; lia| |right; exists q; split; [lia|exact H2]]. destruct (Z.eq_dec (nth m depths 0%Z) (nth p depths 0%Z)) as [E|E]; [right; exists m; split; [lia|exact E]|].
      left. intros q Hq. destruct (Nat.eq_dec q m) as [->|]; [exact E|apply IH; lia]. }
    destruct (G p) as [H|(q & H1 & H2)]; [left; exact H|right; intros H; apply (H q H1 H2)]. }
  assert (In_t : forall u, In u (ct_nodes t) -> ci_off (ct_info u) + ci_size (ct_info u) <= length perm).
  { intros u Hu. pose proof (level_ordered (ci_depth (ct_info u)) t Ht) as O. pose proof (ordered_in _ _ _ u O) as B. destruct B as [_ B]; [apply filter_In; split; [exact Hu|apply Nat.eqb_refl]|]. lia. }
  destruct (labels_ok (length perm) depths (ct_nodes t) In_t) as (outs & cnt & E & Lo & _ & I).
  { intros p k k' u u' i Hk Hu Hu' Hi Hi'. destruct (Nat.lt_ge_cases p (length depths)) as [Lp|Lp].
    - destruct (Fd p) as [F|F]; [rewrite (S1 p Lp F) in *|rewrite (S2 p Lp F) in *; destruct k; discriminate]. pose proof (level_ordered (Z.to_nat (nth p depths 0%Z)) t Ht) as O.
      unfold in_iv, interval in Hi, Hi'. cbn [fst snd] in *. apply andb_true_iff in Hi. apply andb_true_iff in Hi'. rewrite Nat.leb_le, Nat.ltb_lt in *.
      destruct (Nat.lt_ge_cases k k') as [L|L]; [pose proof (ordered_nth _ _ _ k k' u u' O L Hu Hu')|pose proof (ordered_nth _ _ _ k' k u' u O ltac:(lia) Hu' Hu)]; lia.
    - rewrite filter_none in Hu; [destruct k; discriminate|]. intros v _. unfold sel. destruct (find_depth (ci_depth (ct_info v)) depths) as [q|] eqn:F; [|reflexivity]. apply find_depth_some in F. apply Nat.eqb_neq. lia. }
  assert (Cx : forall d, d < dim -> exists xs, all_some (map (fun p => nth_error x0 (dim * p + d)) perm) = Some xs /\ length xs = length perm /\ (forall x, In x xs -> In x x0) /\ forall i, i < length perm -> nth_error xs i = nth_error x0 (dim * nth i perm 0 + d)).
  { intros d Hdd. clear - Hx Hdd. induction perm as [|p l IH]; [exists []; cbn; repeat split; try tauto; intros; lia|]. destruct IH as (xs & E & L & S & N); [intros q Hq; apply Hx; right; exact Hq|].
    cbn [map all_some]. assert (Hp : dim * p + d < length x0) by (specialize (Hx p (or_introl eq_refl)); lia). apply nth_error_Some in Hp. destruct (nth_error x0 (dim * p + d)) as [x|] eqn:Ex; [|congruence]. rewrite E.
    exists (x :: xs). split; [reflexivity|]. split; [cbn; lia|]. split; [intros y [<-|Hy]; [eapply nth_error_In, Ex|apply S, Hy]|]. intros [|i] Hi; cbn [nth_error nth]; [symmetry; exact Ex|]. apply N. cbn in Hi. lia. }
  assert (Cs : exists coords, length coords = dim /\ all_some (map (coordinate_line X fmt dim x0 perm) (seq 0 dim)) =
     Some (map (fun d => (list_ascii_of_string "x_" ++ print_nat d) ++ [","%char] ++ print_values fmt (nth d coords []) ++ [newline]) (seq 0 dim)) /\
     forall d, d < dim -> all_some (map (fun p => nth_error x0 (dim * p + d)) perm) = Some (nth d coords [])).
  { exists (map (fun d => match all_some (map (fun p => nth_error x0 (dim * p + d)) perm) with Some xs => xs | None => [] end) (seq 0 dim)). split; [rewrite map_length, seq_length; reflexivity|].
    assert (N : forall d, d < dim -> all_some (map (fun p => nth_error x0 (dim * p + d)) perm) = Some (nth d (map (fun d => match all_some (map (fun p => nth_error x0 (dim * p + d)) perm) with Some xs => xs | None => [] end) (seq 0 dim)) [])).
    { intros d Hdd. rewrite (nth_indep _ [] ((fun d => match all_some (map (fun p => nth_error x0 (dim * p + d)) perm) with Some xs => xs | None => [] end) 0)) by (rewrite map_length, seq_length; exact Hdd).
      rewrite (map_nth (fun d => match all_some (map (fun p => nth_error x0 (dim * p + d)) perm) with Some xs => xs | None => [] end)). rewrite seq_nth by exact Hdd. cbn [Nat.add]. destruct (Cx d Hdd) as (xs & E' & _). rewrite E'. reflexivity. }
    split; [|exact N]. apply all_some_map_ok. intros d Hdd. apply in_seq in Hdd. unfold coordinate_line. rewrite (N d) by lia. rewrite <- !app_assoc. reflexivity. }
  destruct Cs as (coords & Lcs & Ecs & Ncs).
  set (rows := map (fun d => (list_ascii_of_string "x_" ++ print_nat d) :: map fmt (nth d coords [])) (seq 0 dim) ++ map (fun p => print_Z (nth p depths 0%Z) :: map print_nat (nth p outs [])) (seq 0 (length depths))).
  exists (lines_text (map (sep_by ","%char) rows)), coords, outs.
  assert (Sc : forall c s l, l <> [] -> sep_by c (s :: l) = s ++ [c] ++ sep_by c l) by (intros c s [|a l] H; [congruence|reflexivity]).
  split; [|split; [|split]].
  - unfold save_clustered_geometry. rewrite Ecs, E. cbn [fst snd]. do 2 f_equal. unfold rows, lines_text. rewrite !map_app, concat_app, !map_map. f_equal.
    + f_equal. apply map_ext_in. intros d Hdd. apply in_seq in Hdd. rewrite print_values_sep. rewrite Sc; [rewrite <- !app_assoc; reflexivity|].
      destruct (Cx d) as (xs & E' & L' & _); [lia|]. rewrite (Ncs d) in E' by lia. injection E' as ->. destruct xs; [destruct perm; [congruence|discriminate]|discriminate].
    + f_equal. transitivity (map (fun dl => print_Z (fst dl) ++ [","%char] ++ print_values print_nat (snd dl) ++ [newline]) (map (fun p => (nth p depths 0%Z, nth p outs [])) (seq 0 (length depths)))).
      * f_equal. clear - Lo. revert outs Lo. induction depths as [|d l IH]; intros [|o outs] L; try discriminate; [reflexivity|]. cbn [combine length seq map nth]. f_equal. rewrite <- seq_shift, map_map. apply IH. cbn in L. lia.
      * rewrite map_map. apply map_ext_in. intros p Hpp. apply in_seq in Hpp. cbn [fst snd]. rewrite print_values_sep. rewrite Sc; [rewrite <- !app_assoc; reflexivity|].
        destruct (I p) as (_ & I2 & _); [lia|]. destruct (nth p outs []); [destruct perm; [congruence|discriminate]|discriminate].
  - apply table_ok.
    + intros r Hr. unfold rows in Hr. apply in_app_iff in Hr. destruct Hr as [Hr|Hr]; apply in_map_iff in Hr; destruct Hr as (q & <- & _); discriminate.
    + intros r s Hr Hs. unfold rows in Hr. apply in_app_iff in Hr. destruct Hr as [Hr|Hr]; apply in_map_iff in Hr; destruct Hr as (q & <- & Hq); apply in_seq in Hq; destruct Hs as [<-|Hs].
      * destruct (print_nat_clean q) as (A1 & _ & A2 & _). split; intros Q; apply in_app_iff in Q; (destruct Q as [Q|Q]; [cbn in Q; destruct Q as [Q|[Q|[]]]; discriminate|contradiction]).
      * apply in_map_iff in Hs. destruct Hs as (x & <- & Hx'). apply Hf. destruct (Cx q) as (xs & E' & _ & S & _); [lia|]. rewrite (Ncs q) in E' by lia. injection E' as <-. apply S, Hx'.
      * destruct (print_Z_clean (nth q depths 0%Z)) as (A1 & _ & A2 & _). split; assumption.
      * apply in_map_iff in Hs. destruct Hs as (x & <- & _). destruct (print_nat_clean x) as (A1 & _ & A2 & _). split; assumption.
  - intros d Hdd. destruct (Cx d Hdd) as (xs & E' & L & _ & N). rewrite (Ncs d Hdd) in E'. injection E' as ->. split; [exact L|exact N].
  - intros p Lp. destruct (I p Lp) as (_ & I2 & I3 & I4). split; [exact I2|]. cbv zeta. destruct (Fd p) as [F|F].
    + rewrite (S1 p Lp F) in *. split; [intros _; exact I3|]. intros i H. apply I4, H, F.
    + rewrite (S2 p Lp F) in *. split; [intros Q; contradiction|]. intros i _. apply I4. intros u [].
Qed.
Print Assumptions C74_clustered_geometry.

(** On a tree built by create_cluster_tree, for a depth at which every point has a cluster: two points have the same number exactly
    when they are in the same cluster of that depth. *)
Theorem C74_built_trees :
  forall sorter strat P fuel s t loc X (fmt : X -> str) dim (x0 : list X) name depths,
    sorter_ok sorter -> (forall part, bp_given P = Some part -> tiles 0 (bp_n P) part) ->
    cluster_tree sorter strat P fuel = Some (s, t, loc) -> 1 <= bp_n P ->
    length x0 = dim * bp_n P -> (forall x, In x x0 -> ~ In ","%char (fmt x) /\ ~ In newline (fmt x)) ->
    (forall d, In d depths -> (0 <= d < 4294967296)%Z) -> NoDup depths ->
    exists text coords labels,
      save_clustered_geometry X fmt t (st_perm s) dim x0 name depths = Some (name ++ list_ascii_of_string ".csv", text) /\
      read_table text = Some (map (fun d => (list_ascii_of_string "x_" ++ print_nat d) :: map fmt (nth d coords [])) (seq 0 dim) ++
                              map (fun p => print_Z (nth p depths 0%Z) :: map print_nat (nth p labels [])) (seq 0 (length depths))) /\
      (forall d i, d < dim -> i < bp_n P -> nth_error (nth d coords []) i = nth_error x0 (dim * nth i (st_perm s) 0 + d)) /\
      forall p d, p < length depths -> nth p depths 0%Z = Z.of_nat d -> length (nth p labels []) = bp_n P /\
        ((forall u, In u (ct_leaves t) -> d <= ci_depth (ct_info u)) ->
         forall i j, i < bp_n P -> j < bp_n P ->
           (nth i (nth p labels []) 0 = nth j (nth p labels []) 0 <->
            exists u, In u (ct_nodes t) /\ ci_depth (ct_info u) = d /\ in_iv i (interval u) = true /\ in_iv j (interval u) = true)).
Proof.
  intros sorter strat P fuel s t loc X fmt dim x0 name depths Hs Hg H Hn Lx Hf Hd ND.
  destruct (final_nodes sorter strat P Hs fuel s t loc Hg H) as [Ht N]. assert (N' : forall u, In u (ct_nodes t) -> node_ok u /\ depth_ok u) by (intros u Hu; destruct (N u Hu) as (A & B & _); split; assumption).
  assert (Pm : Permutation (st_perm s) (seq 0 (bp_n P))).
  { apply (C01_permutation_is_bijection sorter strat P fuel s t loc Hs); [|exact H]. intros part E os Hos. destruct os as [o z]. exact (proj2 (tiles_In part 0 (bp_n P) o z (Hg part E) Hos)). }
  assert (Lp : length (st_perm s) = bp_n P) by (rewrite (Permutation_length Pm), seq_length; reflexivity).
  destruct (C74_clustered_geometry X fmt t (st_perm s) dim x0 name depths Hf) as (text & coords & labels & E1 & E2 & E3 & E4).
  - intros E. rewrite E in Lp. cbn in Lp. lia.
  - intros p Hp. apply (Permutation_in _ Pm) in Hp. apply in_seq in Hp. rewrite Lx. nia.
  - exact N'.
  - rewrite Ht, Lp. cbn. lia.
  - exact Hd.
  - exists text, coords, labels. split; [exact E1|]. split; [exact E2|]. rewrite <- Lp. split; [intros d i Hdd Hi; apply (E3 d Hdd), Hi|]. intros p d Hp Ed. destruct (E4 p Hp) as (L & F & _). split; [exact L|]. cbv zeta in F. rewrite Ed, Nat2Z.id in F.
    assert (Fp : first_at depths p) by (intros q Hq Q; rewrite (NoDup_nth depths 0%Z) in ND; specialize (ND q p ltac:(lia) Hp Q); lia). specialize (F Fp).
    intros Hl. assert (T : tiles 0 (length (st_perm s)) (map interval (level d t))).
    { replace 0 with (ci_off (ct_info t)) by (rewrite Ht; reflexivity). replace (length (st_perm s)) with (ci_off (ct_info t) + ci_size (ct_info t)) by (rewrite Ht, Lp; reflexivity). apply level_tiles; [exact N'| |rewrite Ht; cbn; lia].
      intros u Hu Hlt Hc. specialize (Hl u). assert (In u (ct_leaves t)) by (unfold ct_leaves; apply filter_In; split; [exact Hu|unfold is_leaf; rewrite Hc; reflexivity]). specialize (Hl H0). lia. }
    assert (G : forall i, i < length (st_perm s) -> exists k u, nth_error (level d t) k = Some u /\ in_iv i (interval u) = true).
    { intros i Hi. pose proof (tiles_unique _ _ _ i T) as U. destruct (filter (in_iv i) (map interval (level d t))) as [|os l] eqn:Ef; [assert (Q : (0 <=? i) && (i <? length (st_perm s)) = true) by (apply andb_true_iff; split; [apply Nat.leb_le|apply Nat.ltb_lt]; lia); rewrite Q in U; discriminate|].
      assert (Hos : In os (filter (in_iv i) (map interval (level d t)))) by (rewrite Ef; left; reflexivity). apply filter_In in Hos. destruct Hos as [Hos Hi']. apply in_map_iff in Hos. destruct Hos as (u & <- & Hu). apply In_nth_error in Hu. destruct Hu as (k & Hk). exists k, u. auto. }
    intros i j Hi Hj. destruct (G i Hi) as (k & u & Hk & Hu). destruct (G j Hj) as (k' & u' & Hk' & Hu'). rewrite (F k u i Hk Hu), (F k' u' j Hk' Hu'). split.
    + intros <-. rewrite Hk in Hk'. injection Hk' as <-. apply nth_error_In in Hk. apply filter_In in Hk. destruct Hk as [A B]. apply Nat.eqb_eq in B. exists u. auto.
    + intros (v & Hv & Dv & V1 & V2). assert (Iv : In v (level d t)) by (apply filter_In; split; [exact Hv|apply Nat.eqb_eq; exact Dv]). apply In_nth_error in Iv. destruct Iv as (m & Hm). rewrite <- (F k u i Hk Hu), <- (F k' u' j Hk' Hu'). rewrite (F m v i Hm V1), (F m v j Hm V2). reflexivity.
Qed.
Print Assumptions C74_built_trees.

(** A depth at which some points have no cluster: they have the number of the first cluster. *)
Definition ex_deep : ctree := CNode (mkCinfo 0 0 3 0 0 [0; 1; 2]) [CNode (mkCinfo 0 0 2 1 0 [0; 1]) [CNode (mkCinfo 0 0 1 2 0 [0]) []; CNode (mkCinfo 0 1 1 2 1 [1]) []]; CNode (mkCinfo 1 2 1 1 1 [2]) []].
Definition ex_file : option (str * str) := save_clustered_geometry Z print_Z ex_deep [2; 0; 1] 2 [10; 11; 20; 21; 30; 31]%Z (list_ascii_of_string "geo") [0; 1; 2]%Z.
Example ex_text : option_map (fun f => (string_of_list_ascii (fst f), string_of_list_ascii (snd f))) ex_file = Some ("geo.csv", "x_0,30,10,20
x_1,31,11,21
0,0,0,0
1,0,0,1
2,0,1,0
")%string.
Proof. vm_compute. reflexivity. Qed.
Theorem C74_no_cluster_refuted : exists text, ex_file = Some (list_ascii_of_string "geo.csv", text) /\
  option_map (fun l => nth 4 l []) (read_table text) = Some (map list_ascii_of_string ["2"; "0"; "1"; "0"]%string) /\
  (forall u, In u (ct_nodes ex_deep) -> ci_depth (ct_info u) = 2 -> in_iv 2 (interval u) = false) /\
  forall u, In u (ct_nodes ex_deep) -> node_ok u /\ depth_ok u.
Proof.
  eexists. split; [vm_compute; reflexivity|]. split; [vm_compute; reflexivity|]. split.
  - intros u Hu. cbn in Hu. repeat (destruct Hu as [<-|Hu]; [cbn; intros; try discriminate; reflexivity|]). destruct Hu.
  - intros u Hu. cbn in Hu. repeat (destruct Hu as [<-|Hu]; [split; [first [left; reflexivity|right; cbn; auto]|intros k Hk; cbn in Hk; repeat (destruct Hk as [<-|Hk]; [reflexivity|]); destruct Hk]|]). destruct Hu.
Qed.
Print Assumptions C74_no_cluster_refuted.

(** The tree of 23 points of P_Cluster.v satisfies the hypotheses, with the depths 0 and 1. *)
Lemma ex_tree_leaves : match ex_tree with Some (_, t, _) => forallb (fun u => 1 <=? ci_depth (ct_info u)) (ct_leaves t) | None => false end = true.
Proof. vm_compute. reflexivity. Qed.
Lemma ex_tree_node : match ex_tree with Some (_, t, _) => existsb (fun u => (ci_depth (ct_info u) =? 1) && in_iv 3 (interval u) && in_iv 4 (interval u)) (ct_nodes t) | None => false end = true.
Proof. vm_compute. reflexivity. Qed.
Lemma ex_tree_is : ex_tree = cluster_tree (isort ex_key) Regular exP 25.
Proof. reflexivity. Qed.
Opaque ex_tree.
Example ex_built : exists s t loc, ex_tree = Some (s, t, loc) /\ forallb (fun u => 1 <=? ci_depth (ct_info u)) (ct_leaves t) = true /\
  exists text labels, save_clustered_geometry Z print_Z t (st_perm s) 1 (map Z.of_nat (seq 100 23)) [] [0; 1]%Z = Some (list_ascii_of_string ".csv", text) /\
    length (nth 1 labels []) = 23 /\ nth 3 (nth 1 labels []) 0 = nth 4 (nth 1 labels []) 0.
Proof.
  pose proof ex_tree_leaves as F. pose proof ex_tree_node as N.
  pose proof ex_tree_is as T.
  destruct ex_tree as [[[s t] loc]|]; [|discriminate F].
  destruct (C74_built_trees (isort ex_key) Regular exP 25 s t loc Z print_Z 1 (map Z.of_nat (seq 100 23)) [] [0; 1]%Z) as (text & coords & labels & E1 & _ & _ & E4).
  - apply isort_ok.
  - intros part Q. discriminate.
  - symmetry. exact T.
  - cbn. lia.
  - reflexivity.
  - intros x _. destruct (print_Z_clean x) as (A1 & _ & A2 & _). split; assumption.
  - intros d [<-|[<-|[]]]; lia.
  - repeat constructor; cbn; intuition discriminate.
  - exists s, t, loc. split; [reflexivity|]. split; [exact F|]. exists text, labels. split; [exact E1|].
    destruct (E4 1 1) as [L Q]; [cbn; lia|reflexivity|]. split; [exact L|]. rewrite forallb_forall in F. apply Q.
    + intros u Hu. apply Nat.leb_le, F, Hu.
    + cbn. lia.
    + cbn. lia.
    + apply existsb_exists in N. destruct N as (u & Hu & N). rewrite !andb_true_iff in N. destruct N as [[N1 N2] N3].
      exists u. split; [exact Hu|]. split; [apply Nat.eqb_eq, N1|]. split; assumption.
Qed.
