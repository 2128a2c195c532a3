(** * Property C75: the operators of the class Matrix and its text output.  Vocabulary: HMatSpec.v (wf_mat; me A i j is the entry (i,j)),
    P_IO.v (separates). *)

From Coq Require Import Ascii String List Arith Bool ZArith Lia Reals.
From Verif Require Import ClusterModel IOModel IOSpec IOProofs P_IO ClusterIO BlockModel Algebra BlasModel BlasProofs HMatModel HMatSpec HMatBuild DistModel RealNum ErrModel P_Err MatOpModel.
Import ListNotations.
Local Open Scope list_scope.
Local Open Scope nat_scope.

Section P.
  Variable K : Coef.
  Notation C := (car K).
  Add Ring Kr : (c_ring K).

  Lemma some_map : forall A B (g : A -> option B) (h : A -> B) l, (forall a, In a l -> g a = Some (h a)) -> all_some (map g l) = Some (map h l).
  Proof. intros A B g h. induction l as [|a l IH]; intros H; [reflexivity|]. cbn [map all_some]. rewrite (H a (or_introl eq_refl)). rewrite IH by (intros x Hx; apply H; right; exact Hx). reflexivity. Qed.
  Lemma get_error : forall (l : list C) i x, nth_error l i = Some x -> get l i = x.
  Proof. intros l i x H. unfold get. apply nth_error_nth. exact H. Qed.

  (** Writing the entries. *)
  Lemma write_loop : forall nr nc (f : nat -> nat -> option C) (g : nat -> nat -> C) P d, NoDup P -> (forall p, In p P -> fst p < nr /\ snd p < nc) -> (forall p, In p P -> f (fst p) (snd p) = Some (g (fst p) (snd p))) -> length d = nr * nc ->
    exists d', fold_left (fun st ij => do d <- st; do x <- f (fst ij) (snd ij); upd K d (fst ij + snd ij * nr) x) P (Some d) = Some d' /\ length d' = nr * nc /\ forall i j, i < nr -> j < nc -> In (i, j) P -> nth_error d' (i + j * nr) = Some (g i j).
  Proof.
    intros nr nc f g. induction P as [|[i j] P IH] using rev_ind; intros d ND HP Hf Hl.
    - exists d. split; [reflexivity|]. split; [exact Hl|]. intros i j _ _ [].
    - assert (ND' : NoDup P /\ ~ In (i, j) P). { apply NoDup_remove in ND. rewrite app_nil_r in ND. exact ND. }
      destruct ND' as [N1 N2]. destruct (IH d N1) as (d1 & E1 & L1 & G1); [intros p Hp; apply HP, in_app_iff; left; exact Hp|intros p Hp; apply Hf, in_app_iff; left; exact Hp|exact Hl|].
      rewrite fold_left_app, E1. cbn [fold_left fst snd]. assert (Hin : In (i, j) (P ++ [(i, j)])) by (apply in_app_iff; right; left; reflexivity). destruct (HP _ Hin) as [Hi Hj]. pose proof (Hf _ Hin) as E. cbn [fst snd] in *. rewrite E.
      destruct (upd_ok K d1 (i + j * nr) (g i j)) as (d2 & E2 & L2 & A2 & B2); [rewrite L1; nia|]. exists d2. split; [exact E2|]. split; [congruence|]. intros i' j' Hi' Hj' Hp. destruct (Nat.eq_dec (i' + j' * nr) (i + j * nr)) as [Q|Q].
      + apply index_inj in Q; [|exact Hi'|exact Hi]. destruct Q as [-> ->]. exact A2.
      + rewrite B2 by exact Q. apply G1; [exact Hi'|exact Hj'|]. apply in_app_iff in Hp. destruct Hp as [Hp|[Hp|[]]]; [exact Hp|]. injection Hp as <- <-. congruence.
  Qed.
  Lemma write_entries_ok : forall nr nc (f : nat -> nat -> option C) (g : nat -> nat -> C), (forall i j, i < nr -> j < nc -> f i j = Some (g i j)) ->
    exists M, write_entries K nr nc f = Some M /\ wf_mat M nr nc /\ forall i j, i < nr -> j < nc -> me M i j = g i j.
  Proof.
    intros nr nc f g H. unfold write_entries. destruct (write_loop nr nc f g (list_prod (seq 0 nr) (seq 0 nc)) (repeat (c0 K) (nr * nc))) as (d & E & L & G).
    - apply nodup_pairs.
    - apply in_pairs.
    - intros p Hp. apply in_pairs in Hp. apply H; apply Hp.
    - apply repeat_length.
    - rewrite E. eexists. split; [reflexivity|]. split; [repeat split; exact L|]. intros i j Hi Hj. unfold me. cbn [HMatModel.md mr mkMat]. apply get_error. apply G; [exact Hi|exact Hj|]. apply in_prod; apply in_seq; lia.
  Qed.

  (** Accumulating. *)
  Lemma acc_loop : forall T (pos : T -> nat) (val : T -> C) (step : option (list C) -> T -> option (list C)) N P d,
    (forall x d, In x P -> length d = N -> pos x < N /\ step (Some d) x = upd K d (pos x) (cadd K (get d (pos x)) (val x))) -> length d = N ->
    exists d', fold_left step P (Some d) = Some d' /\ length d' = N /\ forall q, get d' q = cadd K (get d q) (lsum (filter (fun x => pos x =? q) P) val).
  Proof.
    intros T pos val step N. induction P as [|x P IH]; intros d H Hl.
    - exists d. split; [reflexivity|]. split; [exact Hl|]. intros q. cbn [filter lsum]. ring.
    - cbn [fold_left]. destruct (H x d (or_introl eq_refl) Hl) as [Hp Es]. rewrite Es. destruct (upd_ok K d (pos x) (cadd K (get d (pos x)) (val x))) as (d1 & E1 & L1 & A1 & B1); [lia|]. rewrite E1.
      destruct (IH d1) as (d' & E' & L' & G'); [intros y e Hy; apply H; right; exact Hy|congruence|]. exists d'. split; [exact E'|]. split; [exact L'|]. intros q. rewrite G'. cbn [filter]. destruct (Nat.eqb_spec (pos x) q) as [<-|Nq].
      + cbn [lsum]. rewrite (get_error _ _ _ A1). ring.
      + f_equal. unfold get. destruct (nth_error d q) as [y|] eqn:Ey.
        * rewrite <- (B1 q) in Ey by congruence. rewrite (nth_error_nth _ _ _ Ey). rewrite (B1 q) in Ey by congruence. rewrite (nth_error_nth _ _ _ Ey). reflexivity.
        * assert (length d <= q) by (apply nth_error_None; exact Ey). rewrite !nth_overflow by lia. reflexivity.
  Qed.
  Lemma lsum_key : forall A B (key : A -> nat) (L : list A) (S : list B) (f : A * B -> C) a, NoDup L -> In a L -> (forall x, In x L -> key x = key a -> x = a) ->
    lsum (filter (fun x => key (fst x) =? key a) (list_prod L S)) f = lsum S (fun k => f (a, k)).
  Proof.
    intros A B key L S f a. induction L as [|x L IH]; intros ND Ha Inj; [destruct Ha|]. cbn [list_prod]. rewrite filter_app, lsum_app. inversion ND as [|y z N1 N2]; subst.
    assert (F : forall S', filter (fun y : A * B => key (fst y) =? key a) (map (fun k => (x, k)) S') = if key x =? key a then map (fun k => (x, k)) S' else []).
    { induction S' as [|k S' IHS]; cbn [map filter fst]; [destruct (key x =? key a); reflexivity|]. rewrite IHS. destruct (key x =? key a); reflexivity. }
    rewrite F. destruct (Nat.eqb_spec (key x) (key a)) as [E|E].
    - assert (x = a) by (apply Inj; [left; reflexivity|exact E]). subst x. rewrite lsum_map.
      replace (filter (fun y : A * B => key (fst y) =? key a) (list_prod L S)) with (@nil (A * B)); [cbn [lsum]; ring|].
      symmetry. assert (G : forall l : list (A * B), (forall y, In y l -> In (fst y) L) -> filter (fun y => key (fst y) =? key a) l = []).
      { induction l as [|y l IHl]; intros Hl; [reflexivity|]. cbn [filter]. destruct (Nat.eqb_spec (key (fst y)) (key a)) as [E'|]; [|apply IHl; intros w Hw; apply Hl; right; exact Hw].
        exfalso. apply N1. rewrite <- (Inj (fst y)); [apply Hl; left; reflexivity|right; apply Hl; left; reflexivity|exact E']. }
      apply G. intros [y1 y2] Hy. apply in_prod_iff in Hy. apply Hy.
    - destruct Ha as [->|Ha]; [congruence|]. rewrite (IH N2 Ha); [cbn [lsum]; ring|]. intros y Hy. apply Inj. right; exact Hy.
  Qed.
End P.

(** C75.  Rows and columns. *)
Theorem C75_get_row : forall K (A : mat K) r c i, wf_mat A r c -> i < r -> get_row K A i = Some (map (fun j => me A i j) (seq 0 c)).
Proof.
  intros K A r c i W Hi. unfold get_row, get_stridedslice. destruct W as (H1 & H2 & H3). rewrite H2. apply some_map. intros j Hj. apply in_seq in Hj. exact (fetch_ok K A r c i j (conj H1 (conj H2 H3)) Hi ltac:(lia)).
Qed.
Print Assumptions C75_get_row.
Theorem C75_get_col : forall K (A : mat K) r c j, wf_mat A r c -> j < c -> get_col K A j = Some (map (fun i => me A i j) (seq 0 r)).
Proof.
  intros K A r c j W Hj. unfold get_col, get_stridedslice. pose proof W as (H1 & H2 & H3). rewrite H1. apply some_map. intros i Hi. apply in_seq in Hi. pose proof (fetch_ok K A r c i j W ltac:(lia) Hj) as F. unfold fetch in F. rewrite H1 in F. rewrite <- F. f_equal. lia.
Qed.
Print Assumptions C75_get_col.

Lemma strided_ok : forall K (d : list (car K)) start stride a n, 1 <= stride -> n <= length a -> (forall i, i < n -> start + i * stride < length d) ->
  exists d', fold_left (fun st i => do d <- st; do x <- nth_error a i; upd K d (start + i * stride) x) (seq 0 n) (Some d) = Some d' /\ length d' = length d /\
    (forall i, i < n -> nth_error d' (start + i * stride) = nth_error a i) /\ forall q, (forall i, i < n -> q <> start + i * stride) -> nth_error d' q = nth_error d q.
Proof.
  intros K d start stride a n Hs. induction n as [|n IH]; intros Ha Hd.
  - exists d. split; [reflexivity|]. split; [reflexivity|]. split; [intros i Hi; lia|]. reflexivity.
  - destruct IH as (d1 & E1 & L1 & A1 & B1); [lia|intros i Hi; apply Hd; lia|]. rewrite seq_S, fold_left_app, E1. cbn [fold_left Nat.add]. destruct (nth_error a n) as [x|] eqn:Ex; [|apply nth_error_None in Ex; lia].
    destruct (upd_ok K d1 (start + n * stride) x) as (d2 & E2 & L2 & A2 & B2); [rewrite L1; apply Hd; lia|]. rewrite E2. exists d2. split; [reflexivity|]. split; [congruence|]. split.
    + intros i Hi. destruct (Nat.eq_dec i n) as [->|]; [congruence|]. rewrite B2 by nia. apply A1. lia.
    + intros q Hq. rewrite B2 by (apply Hq; lia). apply B1. intros i Hi. apply Hq. lia.
Qed.
(** set_row and set_col change that row or column and nothing else. *)
Theorem C75_set_row : forall K (A : mat K) r c i a, wf_mat A r c -> i < r -> length a = c ->
  exists M, set_row K A i a = Some M /\ wf_mat M r c /\ forall i' j, i' < r -> j < c -> me M i' j = if i' =? i then get a j else me A i' j.
Proof.
  intros K A r c i a W Hi La. unfold set_row, set_stridedslice. destruct W as (H1 & H2 & H3). rewrite H1, H2. destruct (strided_ok K (HMatModel.md A) i r a c) as (d & E & L & P & Q); [lia|lia|intros j Hj; rewrite H3; nia|]. rewrite E.
  eexists. split; [reflexivity|]. split; [split; [reflexivity|]; split; [reflexivity|]; cbn [HMatModel.md]; congruence|]. intros i' j Hi' Hj. unfold me. cbn [HMatModel.md mr]. rewrite H1. destruct (Nat.eqb_spec i' i) as [->|N].
  - unfold get. specialize (P j Hj). destruct (nth_error a j) as [x|] eqn:Ex; [|apply nth_error_None in Ex; lia]. rewrite (nth_error_nth _ _ _ P), (nth_error_nth _ _ _ Ex). reflexivity.
  - assert (E' : nth_error d (i' + j * r) = nth_error (HMatModel.md A) (i' + j * r)) by (apply Q; intros j' Hj' F; apply index_inj in F; [destruct F; congruence|exact Hi'|exact Hi]).
    unfold get. destruct (nth_error (HMatModel.md A) (i' + j * r)) as [x|] eqn:Ex; [|apply nth_error_None in Ex; nia]. rewrite (nth_error_nth _ _ _ E'), (nth_error_nth _ _ _ Ex). reflexivity.
Qed.
Print Assumptions C75_set_row.
Theorem C75_set_col : forall K (A : mat K) r c j a, wf_mat A r c -> j < c -> length a = r ->
  exists M, set_col K A j a = Some M /\ wf_mat M r c /\ forall i j', i < r -> j' < c -> me M i j' = if j' =? j then get a i else me A i j'.
Proof.
  intros K A r c j a W Hj La. unfold set_col, set_stridedslice. destruct W as (H1 & H2 & H3). rewrite H1, H2. destruct (strided_ok K (HMatModel.md A) (j * r) 1 a r) as (d & E & L & P & Q); [lia|lia|intros i Hi; rewrite H3; nia|]. rewrite E.
  eexists. split; [reflexivity|]. split; [split; [reflexivity|]; split; [reflexivity|]; cbn [HMatModel.md]; congruence|]. intros i j' Hi Hj'. unfold me. cbn [HMatModel.md mr]. rewrite H1. destruct (Nat.eqb_spec j' j) as [->|N].
  - unfold get. specialize (P i Hi). replace (j * r + i * 1) with (i + j * r) in P by lia. destruct (nth_error a i) as [x|] eqn:Ex; [|apply nth_error_None in Ex; lia]. rewrite (nth_error_nth _ _ _ P), (nth_error_nth _ _ _ Ex). reflexivity.
  - assert (E' : nth_error d (i + j' * r) = nth_error (HMatModel.md A) (i + j' * r)) by (apply Q; intros i' Hi' F; replace (j * r + i' * 1) with (i' + j * r) in F by lia; apply index_inj in F; [destruct F; congruence|exact Hi|exact Hi']).
    unfold get. destruct (nth_error (HMatModel.md A) (i + j' * r)) as [x|] eqn:Ex; [|apply nth_error_None in Ex; nia]. rewrite (nth_error_nth _ _ _ E'), (nth_error_nth _ _ _ Ex). reflexivity.
Qed.
Print Assumptions C75_set_col.

(** The operators on matrices of the same sizes. *)
Theorem C75_scale : forall K (A : mat K) r c a, wf_mat A r c -> exists M, op_scal K A a = Some M /\ wf_mat M r c /\ forall i j, i < r -> j < c -> me M i j = cmul K (me A i j) a.
Proof.
  intros K A r c a W. unfold op_scal. pose proof W as (-> & -> & _). apply write_entries_ok. intros i j Hi Hj. rewrite (fetch_ok K A r c i j W Hi Hj). reflexivity.
Qed.
Print Assumptions C75_scale.
Theorem C75_sum : forall K (A B : mat K) r c, wf_mat A r c -> wf_mat B r c ->
  (exists M, op_plus K A B = Some M /\ wf_mat M r c /\ forall i j, i < r -> j < c -> me M i j = cadd K (me A i j) (me B i j)) /\
  (exists M, op_minus K A B = Some M /\ wf_mat M r c /\ forall i j, i < r -> j < c -> me M i j = csub K (me A i j) (me B i j)).
Proof.
  intros K A B r c WA WB. unfold op_plus, op_minus. pose proof WB as (B1 & B2 & _). rewrite B1, B2. split; apply write_entries_ok; intros i j Hi Hj; pose proof (fetch_ok K A r c i j WA Hi Hj) as FA; unfold fetch in FA; rewrite FA, (fetch_ok K B r c i j WB Hi Hj); reflexivity.
Qed.
Print Assumptions C75_sum.
Theorem C75_vector_product : forall K (A : mat K) r c v, wf_mat A r c -> length v = c ->
  exists y, op_vec K A v = Some y /\ length y = r /\ forall i, i < r -> get y i = sum c (fun k => cmul K (me A i k) (get v k)).
Proof.
  intros K A r c v W Lv. unfold op_vec. pose proof W as (H1 & H2 & _). rewrite H1, H2.
  destruct (acc_loop K (nat * nat) fst (fun ik => cmul K (me A (fst ik) (snd ik)) (get v (snd ik))) (fun st ik => do l <- st; do a <- nth_error l (fst ik); do m <- nth_error (HMatModel.md A) (fst ik + snd ik * r); do b <- nth_error v (snd ik); upd K l (fst ik) (cadd K a (cmul K m b)))
    r (list_prod (seq 0 r) (seq 0 c)) (repeat (c0 K) r)) as (y & E & L & G).
  - intros [i k] d Hp Ld. apply in_pairs in Hp. cbn [fst snd] in *. destruct Hp as [Hi Hk]. split; [exact Hi|]. rewrite (nth_error_nth' d (c0 K)) by lia. pose proof (fetch_ok K A r c i k W Hi Hk) as F. unfold fetch in F. rewrite H1 in F. rewrite F.
    rewrite (nth_error_nth' v (c0 K)) by lia. reflexivity.
  - apply repeat_length.
  - exists y. split; [exact E|]. split; [exact L|]. intros i Hi. rewrite G. rewrite (lsum_key K nat nat (fun x => x) (seq 0 r) (seq 0 c) _ i); [|apply seq_NoDup|apply in_seq; lia|auto]. rewrite sum_lsum. cbn [fst snd]. unfold get at 1. rewrite nth_repeat. apply add_0_l || (rewrite (Radd_0_l (c_ring K)); reflexivity).
Qed.
Print Assumptions C75_vector_product.
Theorem C75_matrix_product : forall K (A B : mat K) r m c, wf_mat A r m -> wf_mat B m c ->
  exists M, op_mat K A B = Some M /\ wf_mat M r c /\ forall i j, i < r -> j < c -> me M i j = sum m (fun k => cmul K (me A i k) (me B k j)).
Proof.
  intros K A B r m c WA WB. unfold op_mat. pose proof WA as (A1 & A2 & _). pose proof WB as (B1 & B2 & _). rewrite A1, A2, B2.
  destruct (acc_loop K ((nat * nat) * nat) (fun x => fst (fst x) + snd (fst x) * r) (fun x => cmul K (me A (fst (fst x)) (snd x)) (me B (snd x) (snd (fst x))))
    (fun st ijk => do d <- st; let i := fst (fst ijk) in let j := snd (fst ijk) in let k := snd ijk in do x <- nth_error d (i + j * r); do a <- nth_error (HMatModel.md A) (i + k * r); do b <- fetch K B k j; upd K d (i + j * r) (cadd K x (cmul K a b)))
    (r * c) (list_prod (list_prod (seq 0 r) (seq 0 c)) (seq 0 m)) (repeat (c0 K) (r * c))) as (d & E & L & G).
  - intros [[i j] k] d Hp Ld. apply in_prod_iff in Hp. destruct Hp as [Hp Hk]. apply in_pairs in Hp. apply in_seq in Hk. cbn [fst snd] in *. destruct Hp as [Hi Hj]. split; [nia|]. rewrite (nth_error_nth' d (c0 K)) by nia.
    pose proof (fetch_ok K A r m i k WA Hi ltac:(lia)) as F. unfold fetch in F. rewrite A1 in F. rewrite F. rewrite (fetch_ok K B m c k j WB) by lia. reflexivity.
  - apply repeat_length.
  - cbv zeta in E. rewrite E. eexists. split; [reflexivity|]. split; [repeat split; exact L|]. intros i j Hi Hj. unfold me at 1. cbn [HMatModel.md mr mkMat]. rewrite G.
    rewrite (lsum_key K (nat * nat) nat (fun x => fst x + snd x * r) (list_prod (seq 0 r) (seq 0 c)) (seq 0 m) _ (i, j)); [|apply nodup_pairs|apply in_prod; apply in_seq; lia|].
    + rewrite sum_lsum. cbn [fst snd]. unfold get at 1. rewrite nth_repeat. rewrite (Radd_0_l (c_ring K)). reflexivity.
    + intros [i' j'] Hx Q. apply in_pairs in Hx. cbn [fst snd] in *. apply index_inj in Q; [destruct Q; congruence|apply Hx|exact Hi].
Qed.
Print Assumptions C75_matrix_product.

(** argmax: an entry of largest modulus. *)
Theorem C75_argmax : forall K md (A : mat K) r c, wf_mat A r c -> 1 <= r -> 1 <= c ->
  exists i j, op_argmax K md A = Some (i, j) /\ i < r /\ j < c /\ forall i' j', i' < r -> j' < c -> (md (me A i' j') <= md (me A i j))%R.
Proof.
  intros K md A r c W Hr Hc. unfold op_argmax. pose proof W as (H1 & H2 & H3). rewrite H1, H2, firstn_all2 by (rewrite H3; nia). destruct (Nat.eqb_spec r 0); [lia|].
  destruct (C73_max_modulus K md (HMatModel.md A)) as (x & _ & E & M & _); [intros E; rewrite E in H3; cbn in H3; nia|]. set (p := vargmax K md (HMatModel.md A)) in *. clearbody p.
  assert (Hp : p < r * c) by (rewrite <- H3; apply nth_error_Some; congruence). exists (p mod r), (p / r). split; [reflexivity|]. split; [apply Nat.mod_upper_bound; lia|]. split; [apply Nat.div_lt_upper_bound; lia|].
  intros i' j' Hi Hj. pose proof (fetch_ok K A r c i' j' W Hi Hj) as F. apply nth_error_In in F. apply M in F.
  replace (me A (p mod r) (p / r)) with x; [exact F|]. unfold me. rewrite H1. symmetry. apply get_error. rewrite <- E. f_equal. rewrite (Nat.div_mod p r) at 3 by lia. lia.
Qed.
Print Assumptions C75_argmax.

(** Matrices of different sizes are not detected: 2 x 2 read as 1 x 4. *)
Theorem C75_other_sizes_refuted :
  option_map (fun M => HMatModel.md M) (op_plus Zc (mkMat (K:=Zc) 1 4 [1; 2; 3; 4]%Z) (mkMat (K:=Zc) 2 2 [10; 20; 30; 40]%Z)) = Some [11; 22; 32; 43]%Z /\
  op_plus Zc (mkMat (K:=Zc) 4 1 [1; 2; 3; 4]%Z) (mkMat (K:=Zc) 2 2 [10; 20; 30; 40]%Z) = None.
Proof. split; vm_compute; reflexivity. Qed.
Print Assumptions C75_other_sizes_refuted.

(** The text: one line per row, and splitting a line gives the printed entries of the row. *)
Lemma row_text : forall K (fmt : car K -> str) d x l, fmt x <> [] -> print_row K fmt d (x :: l) = join d (map fmt (x :: l)) ++ [newline].
Proof.
  intros K fmt d x l Hx. unfold print_row.
  assert (J : forall l s, s <> [] -> join d (s :: l) = s ++ concat (map (fun t => d ++ t) l)).
  { clear. intros l. unfold join. cbn [fold_left]. induction l as [|t l IH]; intros s Hs; [cbn; rewrite app_nil_r; reflexivity|]. cbn [fold_left map concat]. destruct s as [|a s]; [congruence|]. rewrite IH by discriminate. rewrite <- !app_assoc. reflexivity. }
  cbn [map]. rewrite J by exact Hx. rewrite app_assoc. f_equal. clear J Hx. revert x. induction l as [|y l IH]; intros x.
  - cbn. rewrite app_nil_r. reflexivity.
  - change (removelast (x :: y :: l)) with (x :: removelast (y :: l)). cbn [map concat]. rewrite <- !app_assoc. f_equal. f_equal. rewrite <- (IH y). f_equal. cbn [rev]. destruct (rev l ++ [y]) as [|z q] eqn:E; [destruct (rev l); discriminate|]. cbn [app]. reflexivity.
Qed.
Theorem C75_text :
  forall K (fmt : car K -> str) (A : mat K) r c delim file, wf_mat A r c -> 1 <= c -> delim <> [] -> ~ In newline delim ->
    (forall x, In x (HMatModel.md A) -> fmt x <> [] /\ separates delim (fmt x) /\ ~ In newline (fmt x)) ->
    exists text, csv_save K fmt file delim A = Some (file, text) /\ length (getlines text []) = r /\
      forall i, i < r -> split (nth i (getlines text []) []) delim = Some (map (fun j => fmt (me A i j)) (seq 0 c)).
Proof.
  intros K fmt A r c delim file W Hc Hd Hn Hf. unfold csv_save, print_matrix. pose proof W as (H1 & H2 & H3). rewrite H1, H2. destruct (Nat.eqb_spec c 0); [lia|].
  rewrite (some_map nat (list (car K)) (get_row K A) (fun i => map (fun j => me A i j) (seq 0 c))) by (intros i Hi; apply in_seq in Hi; apply (C75_get_row K A r c i W); lia).
  assert (Em : forall i j, i < r -> j < c -> In (me A i j) (HMatModel.md A)) by (intros i j Hi Hj; pose proof (fetch_ok K A r c i j W Hi Hj) as F; eapply nth_error_In, F).
  assert (T : concat (map (print_row K fmt delim) (map (fun i => map (fun j => me A i j) (seq 0 c)) (seq 0 r))) = lines_text (map (fun i => join delim (map (fun j => fmt (me A i j)) (seq 0 c))) (seq 0 r))).
  { unfold lines_text. rewrite !map_map. f_equal. apply map_ext_in. intros i Hi. apply in_seq in Hi. destruct c as [|c]; [lia|]. cbn [seq map]. rewrite row_text by (apply Hf, Em; lia). cbn [map]. rewrite map_map. reflexivity. }
  rewrite T. eexists. split; [reflexivity|].
  assert (S : forall i, i < r -> join delim (map (fun j => fmt (me A i j)) (seq 0 c)) = fmt (me A i 0) ++ concat (map (fun t => delim ++ t) (map (fun j => fmt (me A i j)) (seq 1 (c - 1)))) /\
     split (join delim (map (fun j => fmt (me A i j)) (seq 0 c))) delim = Some (map (fun j => fmt (me A i j)) (seq 0 c))).
  { intros i Hi. destruct c as [|c]; [lia|]. cbn [seq map]. rewrite Nat.sub_0_r || idtac. replace (S c - 1) with c by lia. apply C10_split_join_any_delimiter; [exact Hd|apply Hf, Em; lia|].
    intros t [<-|Ht]; [apply Hf, Em; lia|]. apply in_map_iff in Ht. destruct Ht as (j & <- & Hj). apply in_seq in Hj. apply Hf, Em; lia. }
  rewrite getlines_lines.
  - split; [rewrite map_length, seq_length; reflexivity|]. intros i Hi. rewrite (nth_indep _ [] ((fun i => join delim (map (fun j => fmt (me A i j)) (seq 0 c))) 0)) by (rewrite map_length, seq_length; exact Hi).
    rewrite (map_nth (fun i => join delim (map (fun j => fmt (me A i j)) (seq 0 c)))). rewrite seq_nth by exact Hi. apply S, Hi.
  - intros l Hl Q. apply in_map_iff in Hl. destruct Hl as (i & <- & Hi). apply in_seq in Hi. destruct (S i) as [J _]; [lia|]. rewrite J in Q. apply in_app_iff in Q. destruct Q as [Q|Q]; [apply (Hf (me A i 0)); [apply Em; lia|exact Q]|].
    apply in_concat in Q. destruct Q as (w & Hw & Q). apply in_map_iff in Hw. destruct Hw as (t & <- & Ht). apply in_map_iff in Ht. destruct Ht as (j & <- & Hj). apply in_seq in Hj. apply in_app_iff in Q. destruct Q as [Q|Q]; [exact (Hn Q)|]. apply (Hf (me A i j)); [apply Em; lia|exact Q].
Qed.
Print Assumptions C75_text.
(** Without columns nothing is written: the number of rows is lost. *)
Theorem C75_no_columns_refuted : forall K (fmt : car K -> str) file delim r, csv_save K fmt file delim (mkMat (K:=K) r 0 []) = Some (file, []).
Proof. reflexivity. Qed.

Definition exM : mat Zc := mkMat (K:=Zc) 2 3 [1; -2; 30; 4; 5; 60]%Z.
Example ex_wf : wf_mat exM 2 3.
Proof. repeat split. Qed.
Example ex_text : option_map (fun f => string_of_list_ascii (snd f)) (csv_save Zc print_Z [] (list_ascii_of_string ", ") exM) = Some "1, 30, 5
-2, 4, 60
"%string.
Proof. vm_compute. reflexivity. Qed.
Example ex_text_hyps : forall x, In x (HMatModel.md exM) -> print_Z x <> [] /\ separates (list_ascii_of_string ", ") (print_Z x) /\ ~ In newline (print_Z x).
Proof. intros x H. split; [|split; [|apply (print_Z_clean x)]]; cbn in H; repeat (destruct H as [<-|H]; [vm_compute; first [reflexivity|discriminate]|]); destruct H. Qed.
Example ex_product : option_map (fun M => HMatModel.md M) (op_mat Zc exM (mkMat (K:=Zc) 3 2 [1; 0; 2; 0; 1; 1]%Z)) = Some [11; 118; 35; 64]%Z /\
  option_map (fun M => HMatModel.md M) (set_row Zc exM 1 [7; 8; 9]%Z) = Some [1; 7; 30; 8; 5; 9]%Z.
Proof. split; vm_compute; reflexivity. Qed.
