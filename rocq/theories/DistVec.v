(** * Products of distributed operators with vectors. *)

From Coq Require Import List Arith Bool Lia Ring Permutation.
From Verif Require Import ClusterModel ClusterSpec ClusterMore IOModel BlockModel Algebra BlasModel BlasProofs
  HMatModel HMatSpec HMatTop DistModel DistSpec DistProofs.
Import ListNotations.

Section D.
  Variable K : Coef.
  Notation C := (car K).
  Notation buf := (list C).
  Notation "0" := (c0 K).
  Notation "1" := (c1 K).
  Notation "x + y" := (cadd K x y).
  Notation "x * y" := (cmul K x y).
  Add Ring Kring9 : (c_ring K).

  Variables (D : dop K) (A : nat -> nat -> C).
  Notation P := (world K D).
  Notation T := (d_t K D).
  Notation S := (d_s K D).
  Notation NR := (pa_n (d_t K D)).
  Notation NC := (pa_n (d_s K D)).
  Notation ui p := (user_index (d_perm K D) p).
  Hypothesis HT : partition_ok T P.
  Hypothesis HS : partition_ok S P.

  Lemma fold_runs : forall (run : vlop K -> buf -> buf -> option buf) x l y,
    fold_opt K (fun (f : buf -> buf -> option buf) b => f x b) (map run l) y = fold_opt K (fun v b => run v x b) l y.
  Proof. intros. apply fold_map. Qed.

  Lemma only_first_trans : forall n (a b c : buf), only_first n a b -> only_first n b c -> only_first n a c.
  Proof. intros n a b c [H1 H2] [H3 H4]. split; [lia|]. intros p Hp. rewrite H4, H2 by exact Hp. reflexivity. Qed.

  Lemma int_vec_ok : row_blocks D A run_vec 1 -> forall r o s inp out, nth_error (pa_parts T) r = Some (o, s) ->
    (NC <= length inp)%nat -> (s <= length out)%nat ->
    exists y, int_vec_g2l K D r inp out = Some y /\ only_first s out y /\
      forall i, (i < s)%nat -> get y i = sum NC (fun j => part_matrix D A (o + i)%nat j * get inp j).
  Proof.
    intros HB r o s inp out E Hi Ho. unfold int_vec_g2l. destruct (part_size_ok T r o s E) as [-> _].
    destruct (fill0_ok K s out Ho) as (y0 & E0 & F0 & Z0). rewrite E0.
    destruct (add_up_ok K _ _ _ _ _ inp (HB r o s E) ltac:(lia) y0) as (y & E1 & F1 & G1); [destruct F0; lia|].
    rewrite fold_runs in E1. unfold run_vec in E1. exists y. split; [exact E1|]. rewrite Nat.mul_1_r in F1. split; [exact (only_first_trans _ _ _ _ F0 F1)|].
    intros i Hi'. specialize (G1 i 0%nat Hi' ltac:(lia)). rewrite Nat.mul_1_r, Nat.add_0_r in G1. rewrite G1, Z0 by exact Hi'.
    rewrite (sum_ext K NC _ (fun j => part_matrix D A (o + i)%nat j * get inp j)) by (intros j Hj; rewrite Nat.mul_1_r, Nat.add_0_r; reflexivity). ring.
  Qed.

  Lemma mul_part : forall x a, sum NC (fun j => part_matrix D A a j * x (ui S j)) = mul NC A x (ui T a).
  Proof.
    intros x a. unfold mul, part_matrix.
    exact (sum_user K S P (d_perm K D) (fun b => A (ui T a) b * x b) HS).
  Qed.

  (** the input in the numbering of the partition *)
  Lemma input_ok : forall p PP (x : buf) n, partition_ok p PP -> n = pa_n p -> (n <= length x)%nat ->
    exists y, (if d_perm K D then to_part K p x (vec0 K n) else Some x) = Some y /\ (n <= length y)%nat /\
      forall i, (i < n)%nat -> get y i = get x (ui p i).
  Proof.
    intros p PP x n Hp -> Hx. unfold user_index. destruct (d_perm K D).
    - destruct (to_part_ok K p PP x (vec0 K (pa_n p)) Hp Hx) as (y & E1 & [E2 _] & E3); [rewrite length_vec0; lia|].
      exists y. split; [exact E1|]. rewrite length_vec0 in E2. split; [lia|exact E3].
    - exists x. auto.
  Qed.

  Theorem vec_g2g_ok : row_blocks D A run_vec 1 -> forall ins outs x,
    (forall r, (r < P)%nat -> holds_vec (at_rank K ins r) NC x) -> (forall r, (r < P)%nat -> (NR <= length (at_rank K outs r))%nat) ->
    exists ys, vec_g2g K D ins outs = Some ys /\ length ys = P /\
      forall r, (r < P)%nat -> only_first NR (at_rank K outs r) (at_rank K ys r) /\ holds_vec (at_rank K ys r) NR (mul NC A x).
  Proof.
    intros HB ins outs x Hin Hout. unfold vec_g2g.
    destruct (on_ranks_ok buf [] P (fun r => do s <- part_size T r;
        do input <- (if d_perm K D then to_part K S (at_rank K ins r) (vec0 K (nc K D)) else Some (at_rank K ins r));
        int_vec_g2l K D r input (vec0 K s))
      (fun r b => forall o s, nth_error (pa_parts T) r = Some (o, s) -> length b = s /\ forall i, (i < s)%nat -> get b i = mul NC A x (ui T (o + i)%nat)))
      as (locs & -> & HL & Hlocs).
    { intros r Hr. destruct (part_nth T P HT r Hr) as (o & s & E & _). destruct (part_size_ok T r o s E) as [-> _].
      destruct (Hin r Hr) as [Hi1 Hi2].
      destruct (input_ok S P (at_rank K ins r) (nc K D) HS eq_refl Hi1) as (inp & -> & L & G).
      destruct (int_vec_ok HB r o s inp (vec0 K s) E L) as (y & -> & F & V); [rewrite length_vec0; lia|].
      exists y. split; [reflexivity|]. intros o' s' E'. rewrite E in E'. injection E' as <- <-. destruct F as [F _]. rewrite length_vec0 in F.
      split; [exact F|]. intros i Hi. rewrite V by exact Hi. rewrite <- mul_part. apply sum_ext. intros j Hj. f_equal.
      rewrite (G j Hj). apply Hi2. apply (user_index_lt S P HS). exact Hj. }
    rewrite (part_counts_ok T P HT 1).
    assert (HAG : forall recv, (NR <= length recv)%nat -> exists b, allgatherv K P (map (fun os => (snd os * 1)%nat) (pa_parts T))
       (prefix_sums 0 (map (fun os => (snd os * 1)%nat) (pa_parts T))) locs recv = Some b /\ only_first NR recv b /\
       forall i, (i < NR)%nat -> get b i = mul NC A x (ui T i)).
    { intros recv Hr. destruct (allgatherv_ok K T P 1 locs recv HT) as (b & E1 & E2 & E3).
      - intros r o s E. assert (Hr' : (r < P)%nat) by (rewrite <- (po_count _ _ HT); apply nth_error_Some; congruence).
        destruct (Hlocs r Hr' o s E) as [L _]. unfold at_rank. rewrite L. lia.
      - lia.
      - exists b. split; [exact E1|]. rewrite Nat.mul_1_r in E2. split; [exact E2|]. intros i Hi.
        destruct (part_find T P HT i Hi) as (r & o & s & Hr' & E & B). specialize (E3 r o s E (i - o)%nat ltac:(lia)).
        rewrite Nat.mul_1_r in E3. replace (o + (i - o))%nat with i in E3 by lia. rewrite E3.
        destruct (Hlocs r Hr' o s E) as [_ V]. unfold at_rank. rewrite V by lia. do 2 f_equal. lia. }
    apply (on_ranks_ok buf [] P _ (fun r b => only_first NR (at_rank K outs r) b /\ holds_vec b NR (mul NC A x))).
    intros r Hr. specialize (Hout r Hr). unfold nr. destruct (d_perm K D) eqn:Ep.
    - destruct (HAG (vec0 K NR)) as (b & -> & [L _] & V); [rewrite length_vec0; lia|]. rewrite length_vec0 in L.
      destruct (to_user_ok K T P b (at_rank K outs r) HT) as (y & E1 & E2 & E3); [lia|exact Hout|].
      exists y. split; [exact E1|]. split; [exact E2|]. destruct E2 as [E2 _]. split; [lia|]. intros a Ha.
      destruct (user_index_surj T P HT true a Ha) as (i & Hi & <-). rewrite E3, V by exact Hi. reflexivity.
    - destruct (HAG (at_rank K outs r) Hout) as (b & -> & F & V). exists b. split; [reflexivity|]. split; [exact F|].
      split; [destruct F; lia|]. intros a Ha. rewrite V by exact Ha. reflexivity.
  Qed.

  (** ** Transposed products *)
  Lemma int_tpart_ok : transposed_blocks D A run_tvec 1 -> forall r o s inp out, nth_error (pa_parts T) r = Some (o, s) ->
    (s <= length inp)%nat -> (NC <= length out)%nat ->
    exists y, (do b <- fill0 K (nc K D) out; fold_opt K (fun v b => vl_tvec K v 1 inp 1 b) (ops_of K D r) b) = Some y /\ only_first NC out y /\
      forall j, (j < NC)%nat -> get y j = sum s (fun i => part_matrix D A (o + i)%nat j * get inp i).
  Proof.
    intros HB r o s inp out E Hi Ho.
    destruct (fill0_ok K (nc K D) out Ho) as (y0 & -> & F0 & Z0).
    destruct (add_up_ok K _ _ _ _ _ inp (HB r o s E) ltac:(lia) y0) as (y & E1 & F1 & G1); [destruct F0; lia|].
    rewrite fold_runs in E1. unfold run_tvec in E1. exists y. split; [exact E1|]. rewrite Nat.mul_1_r in F1. split; [exact (only_first_trans _ _ _ _ F0 F1)|].
    intros j Hj. specialize (G1 j 0%nat Hj ltac:(lia)). rewrite Nat.mul_1_r, Nat.add_0_r in G1. rewrite G1, Z0 by exact Hj.
    rewrite (sum_ext K s _ (fun i => part_matrix D A (o + i)%nat j * get inp i)) by (intros i Hi'; rewrite Nat.mul_1_r, Nat.add_0_r; reflexivity). ring.
  Qed.

  (** the sum over the processes of sums over their parts *)
  Lemma tiles_sum : forall l lo hi (f : nat -> C), tiles lo hi l ->
    lsum l (fun os => sum (snd os) (fun i => f (fst os + i)%nat)) = sum (hi - lo) (fun i => f (lo + i)%nat).
  Proof.
    induction l as [|[o s] l IH]; intros lo hi f H; cbn [tiles] in H.
    - subst. rewrite Nat.sub_diag. reflexivity.
    - destruct H as [-> H]. cbn [lsum fst snd]. rewrite (IH _ _ f H). pose proof (tiles_le _ _ _ H).
      replace (hi - lo)%nat with (s + (hi - (lo + s)))%nat by lia. rewrite sum_split. f_equal. apply sum_ext. intros i Hi. f_equal. lia.
  Qed.
  Lemma lsum_nth : forall X (d : X) (l : list X) (f : X -> C), lsum l f = lsum (seq 0 (length l)) (fun r => f (nth r l d)).
  Proof.
    intros X d. induction l as [|a l IH]; intros f; [reflexivity|]. cbn [length seq lsum nth]. f_equal.
    rewrite <- seq_shift, lsum_map. cbn [nth]. apply IH.
  Qed.
  Lemma sum_over_ranks : forall (bs : list buf) (f : nat -> C) i, length bs = P ->
    (forall r o s, (r < P)%nat -> nth_error (pa_parts T) r = Some (o, s) -> get (at_rank K bs r) i = sum s (fun k => f (o + k)%nat)) ->
    lsum bs (fun b => get b i) = sum NR f.
  Proof.
    intros bs f i HL H. rewrite (lsum_nth buf [] bs). rewrite HL, <- (po_count _ _ HT).
    rewrite (lsum_ext K _ _ _ (fun r => sum (snd (nth r (pa_parts T) (0, 0)%nat)) (fun k => f (fst (nth r (pa_parts T) (0, 0)%nat) + k)%nat))).
    - rewrite <- (lsum_nth (nat * nat) (0, 0)%nat (pa_parts T) (fun os => sum (snd os) (fun k => f (fst os + k)%nat))).
      rewrite (tiles_sum _ _ _ f (po_tiles _ _ HT)). rewrite Nat.sub_0_r. reflexivity.
    - intros r Hr. apply in_seq in Hr. destruct (part_nth T P HT r) as (o & s & E & _); [rewrite <- (po_count _ _ HT); lia|].
      rewrite (nth_error_nth _ _ (0, 0)%nat E). cbn [fst snd]. apply (H r o s); [rewrite <- (po_count _ _ HT); lia|exact E].
  Qed.

  Lemma tmul_part : forall x b, sum NR (fun a => part_matrix D A a b * x (ui T a)) = tmul NR A x (ui S b).
  Proof.
    intros x b. unfold tmul, part_matrix.
    exact (sum_user K T P (d_perm K D) (fun a => A a (ui S b) * x a) HT).
  Qed.

  Lemma int_tvec_l2g_ok : transposed_blocks D A run_tvec 1 -> forall ins outs x,
    (forall r o s, (r < P)%nat -> nth_error (pa_parts T) r = Some (o, s) -> holds_vec (at_rank K ins r) s (fun i => x (ui T (o + i)%nat))) ->
    (forall r, (r < P)%nat -> (NC <= length (at_rank K outs r))%nat) ->
    exists ys, int_tvec_l2g K D ins outs = Some ys /\ length ys = P /\
      forall r, (r < P)%nat -> only_first NC (at_rank K outs r) (at_rank K ys r) /\ forall j, (j < NC)%nat -> get (at_rank K ys r) j = tmul NR A x (ui S j).
  Proof.
    intros HB ins outs x Hin Hout. unfold int_tvec_l2g.
    destruct (on_ranks_ok buf [] P (fun r => do o <- fill0 K (nc K D) (at_rank K outs r);
        fold_opt K (fun v b => vl_tvec K v 1 (at_rank K ins r) 1 b) (ops_of K D r) o)
      (fun r b => only_first NC (at_rank K outs r) b /\
         forall o s, nth_error (pa_parts T) r = Some (o, s) -> forall j, (j < NC)%nat ->
           get b j = sum s (fun i => part_matrix D A (o + i)%nat j * x (ui T (o + i)%nat))))
      as (parts & -> & HL & Hparts).
    { intros r Hr. destruct (part_nth T P HT r Hr) as (o & s & E & _). destruct (Hin r o s Hr E) as [L V].
      destruct (int_tpart_ok HB r o s (at_rank K ins r) (at_rank K outs r) E L (Hout r Hr)) as (y & E1 & F & G).
      exists y. split; [exact E1|]. split; [exact F|]. intros o' s' E'. rewrite E in E'. injection E' as <- <-. intros j Hj. rewrite G by exact Hj.
      apply sum_ext. intros i Hi. rewrite V by exact Hi. reflexivity. }
    apply (on_ranks_ok buf [] P _ (fun r b => only_first NC (at_rank K outs r) b /\ forall j, (j < NC)%nat -> get b j = tmul NR A x (ui S j))).
    intros r Hr. destruct (allreduce_ok K NC parts r) as (b & E1 & F & V); [lia| |].
    { intros b Hb. destruct (In_nth _ _ [] Hb) as (r' & Hr' & <-). rewrite HL in Hr'. destruct (Hparts r' Hr') as [[F1 _] _]. rewrite F1. apply Hout. exact Hr'. }
    exists b. split; [exact E1|]. destruct (Hparts r Hr) as [F0 _]. split; [exact (only_first_trans _ _ _ _ F0 F)|].
    intros j Hj. rewrite V by exact Hj.
    rewrite (sum_over_ranks parts (fun a => part_matrix D A a j * x (ui T a)) j HL).
    - apply tmul_part.
    - intros r' o s Hr' E. exact (proj2 (Hparts r' Hr') o s E j Hj).
  Qed.

  Theorem tvec_g2g_plain_ok : (d_sym K D <> SyS /\ d_sym K D <> SyH) -> transposed_blocks D A run_tvec 1 -> forall ins outs x,
    (forall r, (r < P)%nat -> holds_vec (at_rank K ins r) NR x) -> (forall r, (r < P)%nat -> (NC <= length (at_rank K outs r))%nat) ->
    exists ys, tvec_g2g K D ins outs = Some ys /\ length ys = P /\
      forall r, (r < P)%nat -> only_first NC (at_rank K outs r) (at_rank K ys r) /\ holds_vec (at_rank K ys r) NC (tmul NR A x).
  Proof.
    intros [Hs1 Hs2] HB ins outs x Hin Hout. unfold tvec_g2g.
    assert (E0 : forall X (a b c : X), match d_sym K D with SyS => a | SyH => b | _ => c end = c).
    { intros X a b c. destruct (d_sym K D); congruence. }
    rewrite E0. clear E0.
    destruct (on_ranks_ok buf [] P (fun r =>
            do input <- (if d_perm K D then to_part K T (at_rank K ins r) (vec0 K (nr K D)) else Some (at_rank K ins r));
            do o <- part_off T r;
            ptr K input o)
      (fun r b => forall o s, nth_error (pa_parts T) r = Some (o, s) -> holds_vec b s (fun i => x (ui T (o + i)%nat))))
      as (inputs & -> & HL & Hinp).
    { intros r Hr. destruct (part_nth T P HT r Hr) as (o & s & E & Hos). destruct (Hin r Hr) as [L V].
      destruct (input_ok T P (at_rank K ins r) (nr K D) HT eq_refl L) as (inp & -> & L' & G). destruct (part_size_ok T r o s E) as [_ ->].
      unfold ptr. unfold nr in *. destruct (Nat.leb_spec o (length inp)); [|lia]. eexists. split; [reflexivity|].
      intros o' s' E'. rewrite E in E'. injection E' as <- <-. split; [rewrite skipn_length; lia|].
      intros i Hi. rewrite get_skipn, G by lia. apply V. apply (user_index_lt T P HT). lia. }
    destruct (d_perm K D) eqn:Ep.
    - destruct (int_tvec_l2g_ok HB inputs (map (fun _ => vec0 K (nc K D)) (seq 0 P)) x) as (ys & -> & HLy & Hys).
      { intros r o s Hr E. rewrite Ep. exact (Hinp r Hr o s E). }
      { intros r Hr. unfold at_rank. rewrite nth_indep with (d' := vec0 K (nc K D)) by (rewrite map_length, seq_length; exact Hr).
        rewrite (map_nth (fun _ => vec0 K (nc K D)) (seq 0 P) 0%nat r), length_vec0. apply Nat.le_refl. }
      apply (on_ranks_ok buf [] P _ (fun r b => only_first NC (at_rank K outs r) b /\ holds_vec b NC (tmul NR A x))).
      intros r Hr. destruct (Hys r Hr) as [[Ly _] Vy]. specialize (Hout r Hr).
      assert (Lv : length (at_rank K (map (fun _ : nat => vec0 K (nc K D)) (seq 0 P)) r) = NC).
      { unfold at_rank. rewrite nth_indep with (d' := vec0 K (nc K D)) by (rewrite map_length, seq_length; exact Hr).
        rewrite (map_nth (fun _ => vec0 K (nc K D)) (seq 0 P) 0%nat r), length_vec0. reflexivity. }
      destruct (to_user_ok K S P (at_rank K ys r) (at_rank K outs r) HS) as (y & E1 & E2 & E3); [lia|exact Hout|].
      exists y. split; [exact E1|]. split; [exact E2|]. destruct E2 as [E2 _]. split; [lia|]. intros b Hb.
      destruct (user_index_surj S P HS true b Hb) as (j & Hj & <-). rewrite E3, Vy by exact Hj. rewrite Ep. reflexivity.
    - destruct (int_tvec_l2g_ok HB inputs outs x) as (ys & -> & HLy & Hys).
      { intros r o s Hr E. rewrite Ep. exact (Hinp r Hr o s E). }
      { exact Hout. }
      exists ys. split; [reflexivity|]. split; [exact HLy|]. intros r Hr. destruct (Hys r Hr) as [F V]. split; [exact F|].
      split; [destruct F as [F _]; rewrite F; exact (Hout r Hr)|]. intros b Hb. rewrite V by exact Hb. rewrite Ep. reflexivity.
  Qed.

  Lemma conj_copy_ok : forall n (x : buf), (n <= length x)%nat ->
    exists y, conj_copy K n x = Some y /\ length y = n /\ forall i, (i < n)%nat -> get y i = cconj K (get x i).
  Proof.
    intros n x Hx. unfold conj_copy. destruct (copy_n_ok K x n (vec0 K n) Hx) as (b & -> & L & V); [rewrite length_vec0; lia|].
    rewrite length_vec0 in L. unfold conj_buf. destruct (transform_ok K n (cconj K) b) as (y & -> & Ly & Vy); [lia|].
    exists y. split; [reflexivity|]. split; [lia|]. intros i Hi. rewrite Vy, V. destruct (Nat.ltb_spec i n); [reflexivity|lia].
  Qed.
  Lemma conj_buf_ok : forall n (x : buf), (n <= length x)%nat ->
    exists y, conj_buf K n x = Some y /\ only_first n x y /\ forall i, (i < n)%nat -> get y i = cconj K (get x i).
  Proof.
    intros n x Hx. unfold conj_buf. destruct (transform_ok K n (cconj K) x Hx) as (y & E & L & V). exists y. split; [exact E|].
    split; [split; [exact L|]|]; intros i Hi; rewrite V; destruct (Nat.ltb_spec i n); try lia; reflexivity.
  Qed.
  Lemma mul_herm : (forall a b, (a < NR)%nat -> (b < NC)%nat -> A a b = cconj K (A b a)) -> NR = NC -> forall x b, (b < NC)%nat ->
    cconj K (mul NC A (fun a => cconj K (x a)) b) = tmul NR A x b.
  Proof.
    intros H E x b Hb. unfold mul, tmul. rewrite conj_sum, E. apply sum_ext. intros a Ha. rewrite cconj_mul, cconj_invol. f_equal.
    rewrite (H a b) by lia. reflexivity.
  Qed.
  Lemma mul_sym : (forall a b, (a < NR)%nat -> (b < NC)%nat -> A a b = A b a) -> NR = NC -> forall x b, (b < NC)%nat ->
    mul NC A x b = tmul NR A x b.
  Proof. intros H E x b Hb. unfold mul, tmul. rewrite E. apply sum_ext. intros a Ha. f_equal. rewrite (H a b) by lia. reflexivity. Qed.

  Theorem tvec_g2g_ok : sym_matrix D A ->
    match d_sym K D with SyS | SyH => row_blocks D A run_vec 1 | _ => transposed_blocks D A run_tvec 1 end -> forall ins outs x,
    (forall r, (r < P)%nat -> holds_vec (at_rank K ins r) NR x) -> (forall r, (r < P)%nat -> (NC <= length (at_rank K outs r))%nat) ->
    exists ys, tvec_g2g K D ins outs = Some ys /\ length ys = P /\
      forall r, (r < P)%nat -> only_first NC (at_rank K outs r) (at_rank K ys r) /\ holds_vec (at_rank K ys r) NC (tmul NR A x).
  Proof.
    intros Hsym HB ins outs x Hin Hout. unfold sym_matrix in Hsym. destruct (d_sym K D) eqn:Es.
    - apply tvec_g2g_plain_ok; try assumption. rewrite Es. split; discriminate.
    - destruct Hsym as [En Hsym]. unfold tvec_g2g. rewrite Es.
      destruct (vec_g2g_ok HB ins outs x) as (ys & E1 & E2 & E3).
      { intros r Hr. rewrite <- En. apply Hin. exact Hr. }
      { intros r Hr. rewrite En. apply Hout. exact Hr. }
      exists ys. split; [exact E1|]. split; [exact E2|]. intros r Hr. destruct (E3 r Hr) as [F [L V]]. rewrite En in F, L. split; [exact F|]. split; [exact L|].
      intros b Hb. rewrite V by lia. apply mul_sym; assumption.
    - destruct Hsym as [En Hsym]. unfold tvec_g2g. rewrite Es.
      destruct (on_ranks_ok buf [] P (fun r => conj_copy K (nr K D) (at_rank K ins r)) (fun r b => holds_vec b NR (fun a => cconj K (x a)))) as (ic & -> & Lc & Hc).
      { intros r Hr. destruct (Hin r Hr) as [L V]. destruct (conj_copy_ok (nr K D) (at_rank K ins r) L) as (y & E1 & E2 & E3).
        exists y. split; [exact E1|]. unfold nr in *. split; [lia|]. intros i Hi. rewrite E3, V by exact Hi. reflexivity. }
      destruct (vec_g2g_ok HB ic outs (fun a => cconj K (x a))) as (ys & -> & E2 & E3).
      { intros r Hr. rewrite <- En. apply Hc. exact Hr. }
      { intros r Hr. rewrite En. apply Hout. exact Hr. }
      apply (on_ranks_ok buf [] P _ (fun r b => only_first NC (at_rank K outs r) b /\ holds_vec b NC (tmul NR A x))).
      intros r Hr. destruct (E3 r Hr) as [F [L V]]. rewrite En in F, L. destruct (conj_buf_ok (nc K D) (at_rank K ys r) L) as (y & G1 & G2 & G3).
      exists y. split; [exact G1|]. split; [exact (only_first_trans _ _ _ _ F G2)|]. unfold nc in *. split; [destruct G2; lia|].
      intros b Hb. rewrite G3, V by lia. apply mul_herm; assumption.
    - apply tvec_g2g_plain_ok; try assumption. rewrite Es. split; discriminate.
  Qed.

  (** ** Local to local *)
  Hypothesis HTl : d_perm K D = true -> partition_local T.
  Hypothesis HSl : d_perm K D = true -> partition_local S.

  Lemma local_input : forall p x r o s (inp : buf), partition_ok p P -> (d_perm K D = true -> partition_local p) ->
    nth_error (pa_parts p) r = Some (o, s) -> holds_vec inp s (part_of o x) ->
    (d_perm K D = true -> exists y, to_part_local K p r inp (vec0 K s) = Some y /\ holds_vec y s (fun i => x (ui p (o + i)%nat))) /\
    (d_perm K D = false -> holds_vec inp s (fun i => x (ui p (o + i)%nat))).
  Proof.
    intros p x r o s inp Hp Hl E [L V]. split; intros Ep; rewrite Ep.
    - destruct (to_part_local_ok K p P r o s Hp (Hl Ep) E inp (vec0 K s) L) as (y & E1 & [E2 _] & E3); [rewrite length_vec0; lia|].
      rewrite length_vec0 in E2. exists y. split; [exact E1|]. split; [lia|]. intros i Hi. rewrite E3 by exact Hi.
      pose proof (local_index p P r o s Hp (Hl Ep) E i Hi) as B. rewrite V by lia. unfold part_of. f_equal. lia.
    - split; [exact L|]. intros i Hi. exact (V i Hi).
  Qed.
  Lemma local_output : forall p y r o s (row out : buf), partition_ok p P -> (d_perm K D = true -> partition_local p) ->
    nth_error (pa_parts p) r = Some (o, s) -> (s <= length row)%nat -> (forall i, (i < s)%nat -> get row i = y (ui p (o + i)%nat)) -> (s <= length out)%nat ->
    d_perm K D = true -> exists b, to_user_local K p r row out = Some b /\ only_first s out b /\ holds_vec b s (part_of o y).
  Proof.
    intros p y r o s row out Hp Hl E L V Ho Ep.
    destruct (to_user_local_ok K p P r o s Hp (Hl Ep) E row out L Ho) as (b & E1 & E2 & E3). exists b. split; [exact E1|]. split; [exact E2|].
    split; [destruct E2; lia|]. intros a Ha. destruct (local_surj p P r o s Hp (Hl Ep) E a Ha) as (i & Hi & Ei).
    specialize (E3 i Hi). rewrite Ei in E3. replace (o + a - o)%nat with a in E3 by lia. rewrite E3, V by exact Hi. rewrite Ep, Ei. reflexivity.
  Qed.

  Lemma l2g_source_ok : forall mu ins works X,
    (forall r o s, (r < P)%nat -> nth_error (pa_parts S) r = Some (o, s) -> (s * mu <= length (at_rank K ins r))%nat /\
       forall k, (k < s * mu)%nat -> get (at_rank K ins r) k = X (o * mu + k)%nat) ->
    (forall r, (r < P)%nat -> (NC * mu <= length (at_rank K works r))%nat) ->
    exists bs, l2g_source K D ins works mu = Some bs /\ length bs = P /\
      forall r, (r < P)%nat -> holds_vec (at_rank K bs r) (NC * mu) X.
  Proof.
    intros mu ins works X Hin Hw. unfold l2g_source. rewrite (part_counts_ok S P HS mu).
    apply (on_ranks_ok buf [] P _ (fun r b => holds_vec b (NC * mu) X)). intros r Hr.
    destruct (allgatherv_ok K S P mu ins (at_rank K works r) HS) as (b & E1 & [E2 _] & E3).
    - intros r' o s E. apply (Hin r' o s); [|exact E]. rewrite <- (po_count _ _ HS). apply nth_error_Some. congruence.
    - apply Hw. exact Hr.
    - exists b. split; [exact E1|]. specialize (Hw r Hr). split; [lia|]. intros q Hq.
      assert (Hmu : (mu <> 0)%nat) by (intros ->; lia).
      assert (Hqn : (q / mu < NC)%nat) by (apply Nat.div_lt_upper_bound; lia).
      destruct (part_find S P HS (q / mu) Hqn) as (r' & o & s & Hr' & E & B).
      pose proof (Nat.div_mod q mu Hmu) as Eq. pose proof (Nat.mod_upper_bound q mu Hmu).
      assert (o * mu <= q < o * mu + s * mu)%nat by nia.
      specialize (E3 r' o s E (q - o * mu)%nat ltac:(lia)). replace (o * mu + (q - o * mu))%nat with q in E3 by lia. rewrite E3.
      destruct (Hin r' o s Hr' E) as [_ V]. rewrite V by lia. f_equal. lia.
  Qed.

  Lemma int_vec_l2l_ok : row_blocks D A run_vec 1 -> forall ins outs works x,
    (forall r o s, (r < P)%nat -> nth_error (pa_parts S) r = Some (o, s) -> holds_vec (at_rank K ins r) s (fun i => x (ui S (o + i)%nat))) ->
    (forall r o s, (r < P)%nat -> nth_error (pa_parts T) r = Some (o, s) -> (s <= length (at_rank K outs r))%nat) ->
    (forall r, (r < P)%nat -> (NC <= length (at_rank K works r))%nat) ->
    exists ys, int_vec_l2l K D ins outs works = Some ys /\ length ys = P /\
      forall r o s, (r < P)%nat -> nth_error (pa_parts T) r = Some (o, s) ->
        only_first s (at_rank K outs r) (at_rank K ys r) /\ holds_vec (at_rank K ys r) s (fun i => mul NC A x (ui T (o + i)%nat)).
  Proof.
    intros HB ins outs works x Hin Hout Hw. unfold int_vec_l2l.
    destruct (l2g_source_ok 1 ins works (fun j => x (ui S j))) as (bs & -> & Lb & Hb).
    { intros r o s Hr E. destruct (Hin r o s Hr E) as [L V]. rewrite !Nat.mul_1_r. split; [exact L|]. intros k Hk. apply V. lia. }
    { intros r Hr. rewrite Nat.mul_1_r. apply Hw. exact Hr. }
    destruct (on_ranks_ok buf [] P (fun r => int_vec_g2l K D r (at_rank K bs r) (at_rank K outs r))
      (fun r b => forall o s, nth_error (pa_parts T) r = Some (o, s) ->
         only_first s (at_rank K outs r) b /\ holds_vec b s (fun i => mul NC A x (ui T (o + i)%nat)))) as (ys & E1 & E2 & E3).
    { intros r Hr. destruct (part_nth T P HT r Hr) as (o & s & E & _). destruct (Hb r Hr) as [L V]. rewrite Nat.mul_1_r in L, V.
      destruct (int_vec_ok HB r o s (at_rank K bs r) (at_rank K outs r) E L (Hout r o s Hr E)) as (y & G1 & G2 & G3).
      exists y. split; [exact G1|]. intros o' s' E'. rewrite E in E'. injection E' as <- <-. split; [exact G2|].
      split; [destruct G2 as [G2 _]; rewrite G2; exact (Hout r o s Hr E)|].
      intros i Hi. rewrite G3 by exact Hi. rewrite <- mul_part. apply sum_ext. intros j Hj. rewrite V by exact Hj. reflexivity. }
    exists ys. split; [exact E1|]. split; [exact E2|]. intros r o s Hr E. exact (E3 r Hr o s E).
  Qed.

  Lemma vecs0_ok : forall p, partition_ok p P -> forall mu,
    exists l, on_ranks P (fun r => do s <- part_size p r; Some (vec0 K (s * mu))) = Some l /\ length l = P /\
      forall r o s, (r < P)%nat -> nth_error (pa_parts p) r = Some (o, s) ->
        length (at_rank K l r) = (s * mu)%nat /\ forall q, get (at_rank K l r) q = 0.
  Proof.
    intros p Hp mu. destruct (on_ranks_ok buf [] P (fun r => do s <- part_size p r; Some (vec0 K (s * mu)))
      (fun r b => forall o s, nth_error (pa_parts p) r = Some (o, s) -> length b = (s * mu)%nat /\ forall q, get b q = 0)) as (l & E1 & E2 & E3).
    { intros r Hr. destruct (part_nth p P Hp r Hr) as (o & s & E & _). destruct (part_size_ok p r o s E) as [-> _]. eexists. split; [reflexivity|].
      intros o' s' E'. rewrite E in E'. injection E' as <- <-. split; [apply length_vec0|]. intros q. apply get_repeat. }
    exists l. split; [exact E1|]. split; [exact E2|]. intros r o s Hr E. exact (E3 r Hr o s E).
  Qed.
  Lemma vecs0_ok1 : forall p, partition_ok p P ->
    exists l, on_ranks P (fun r => do s <- part_size p r; Some (vec0 K s)) = Some l /\ length l = P /\
      forall r o s, (r < P)%nat -> nth_error (pa_parts p) r = Some (o, s) -> length (at_rank K l r) = s.
  Proof.
    intros p Hp. destruct (on_ranks_ok buf [] P (fun r => do s <- part_size p r; Some (vec0 K s))
      (fun r b => forall o s, nth_error (pa_parts p) r = Some (o, s) -> length b = s)) as (l & E1 & E2 & E3).
    { intros r Hr. destruct (part_nth p P Hp r Hr) as (o & s & E & _). destruct (part_size_ok p r o s E) as [-> _]. eexists. split; [reflexivity|].
      intros o' s' E'. rewrite E in E'. injection E' as <- <-. apply length_vec0. }
    exists l. split; [exact E1|]. split; [exact E2|]. intros r o s Hr E. exact (E3 r Hr o s E).
  Qed.

  Theorem vec_l2l_ok : row_blocks D A run_vec 1 -> forall ins outs works x,
    (forall r o s, (r < P)%nat -> nth_error (pa_parts S) r = Some (o, s) -> holds_vec (at_rank K ins r) s (part_of o x)) ->
    (forall r o s, (r < P)%nat -> nth_error (pa_parts T) r = Some (o, s) -> (s <= length (at_rank K outs r))%nat) ->
    (forall r, (r < P)%nat -> (NC <= length (at_rank K works r))%nat) ->
    exists ys, vec_l2l K D ins outs works = Some ys /\ length ys = P /\
      forall r o s, (r < P)%nat -> nth_error (pa_parts T) r = Some (o, s) ->
        only_first s (at_rank K outs r) (at_rank K ys r) /\ holds_vec (at_rank K ys r) s (part_of o (mul NC A x)).
  Proof.
    intros HB ins outs works x Hin Hout Hw. unfold vec_l2l.
    assert (Ep : d_perm K D = true \/ d_perm K D = false) by (destruct (d_perm K D); auto). destruct Ep as [Ep|Ep]; rewrite Ep.
    - destruct (on_ranks_ok buf [] P (fun r => do s <- part_size S r; to_part_local K S r (at_rank K ins r) (vec0 K s))
        (fun r b => forall o s, nth_error (pa_parts S) r = Some (o, s) -> holds_vec b s (fun i => x (ui S (o + i)%nat)))) as (ip & -> & Lip & Hip).
      { intros r Hr. destruct (part_nth S P HS r Hr) as (o & s & E & _). destruct (part_size_ok S r o s E) as [-> _].
        destruct (local_input S x r o s (at_rank K ins r) HS HSl E (Hin r o s Hr E)) as [H1 _]. destruct (H1 Ep) as (y & E1 & E2).
        exists y. split; [exact E1|]. intros o' s' E'. rewrite E in E'. injection E' as <- <-. exact E2. }
      destruct (vecs0_ok1 T HT) as (op & -> & Lop & Hop).
      destruct (int_vec_l2l_ok HB ip op works x) as (os & -> & Los & Hos).
      { intros r o s Hr E. exact (Hip r Hr o s E). }
      { intros r o s Hr E. rewrite (Hop r o s Hr E). lia. }
      { exact Hw. }
      destruct (on_ranks_ok buf [] P (fun r => to_user_local K T r (at_rank K os r) (at_rank K outs r))
        (fun r b => forall o s, nth_error (pa_parts T) r = Some (o, s) ->
          only_first s (at_rank K outs r) b /\ holds_vec b s (part_of o (mul NC A x)))) as (ys & E1 & E2 & E3).
      { intros r Hr. destruct (part_nth T P HT r Hr) as (o & s & E & _). destruct (Hos r o s Hr E) as [_ [L V]].
        destruct (local_output T (mul NC A x) r o s (at_rank K os r) (at_rank K outs r) HT HTl E L V (Hout r o s Hr E) Ep) as (b & G1 & G2 & G3).
        exists b. split; [exact G1|]. intros o' s' E'. rewrite E in E'. injection E' as <- <-. auto. }
      exists ys. split; [exact E1|]. split; [exact E2|]. intros r o s Hr E. exact (E3 r Hr o s E).
    - destruct (int_vec_l2l_ok HB ins outs works x) as (os & -> & Los & Hos).
      { intros r o s Hr E. exact (proj2 (local_input S x r o s (at_rank K ins r) HS HSl E (Hin r o s Hr E)) Ep). }
      { exact Hout. }
      { exact Hw. }
      exists os. split; [reflexivity|]. split; [exact Los|]. intros r o s Hr E. destruct (Hos r o s Hr E) as [F [L V]]. split; [exact F|]. split; [exact L|].
      intros i Hi. rewrite V by exact Hi. unfold part_of. rewrite Ep. reflexivity.
  Qed.

  (** ** Transposed, local to local *)
  Lemma alltoallv_ok : forall mu (sends : list buf) r o s recv, nth_error (pa_parts S) r = Some (o, s) ->
    (forall j, (j < P)%nat -> (NC * mu <= length (at_rank K sends j))%nat) -> (P * (s * mu) <= length recv)%nat ->
    let sc := map (fun os => (snd os * mu)%nat) (pa_parts S) in
    let rc := map (fun _ : nat => (s * mu)%nat) (seq 0 P) in
    exists b, alltoallv K P sc (prefix_sums 0 sc) rc (prefix_sums 0 rc) sends r recv = Some b /\ length b = length recv /\
      forall j k, (j < P)%nat -> (k < s * mu)%nat -> get b (j * (s * mu) + k) = get (at_rank K sends j) (o * mu + k).
  Proof.
    intros mu sends r o s recv E Hs Hr sc rc. unfold alltoallv.
    set (n := (s * mu)%nat) in *.
    destruct (loop_ok K nat (fun j b => if (nth r sc 0 =? nth j rc 0)%nat then
        do s0 <- ptr K (at_rank K sends j) (nth r (prefix_sums 0 sc) 0%nat); put K b s0 (nth j (prefix_sums 0 rc) 0%nat) (nth j rc 0%nat) else None)
      (fun j p => ((j * n <=? p) && (p <? j * n + n))%nat) (fun p => get (at_rank K sends (p / n)) (o * mu + p mod n)%nat) (seq 0 P) recv) as (b & E1 & E2 & E3 & _).
    { intros j b Hj Hb _. apply in_seq in Hj. destruct (counts_nth S P HS r o s mu E) as [C1 C2]. fold sc in C1, C2. rewrite C1, C2.
      assert (C3 : nth j rc 0%nat = n).
      { unfold rc. rewrite nth_indep with (d' := n) by (rewrite map_length, seq_length; lia). exact (map_nth (fun _ => n) (seq 0 P) 0%nat j). }
      rewrite C3. unfold rc. rewrite prefix_sums_const by lia. fold n. rewrite Nat.eqb_refl.
      pose proof (proj2 (tiles_in _ _ _ _ _ _ (po_tiles _ _ HS) E)) as Hos. specialize (Hs j ltac:(lia)).
      assert (o * mu + n <= NC * mu)%nat by (unfold n; nia).
      unfold ptr. destruct (Nat.leb_spec (o * mu) (length (at_rank K sends j))); [|lia].
      destruct (put_ok K b (skipn (o * mu) (at_rank K sends j)) (0 + j * n) n) as (b' & F1 & F2 & F3).
      { rewrite skipn_length. lia. }
      { rewrite Hb. nia. }
      exists b'. split; [exact F1|]. split; [lia|]. intros p. rewrite F3. cbn [Nat.add]. destruct (_ && _) eqn:B; [|reflexivity].
      apply andb_true_iff in B as [B1 B2]. apply Nat.leb_le in B1. apply Nat.ltb_lt in B2.
      rewrite get_skipn. assert (Hn : (n <> 0)%nat) by lia.
      assert (Ed : (p / n = j)%nat) by (symmetry; apply (Nat.div_unique p n j (p - j * n)); lia).
      assert (Em : (p mod n = p - j * n)%nat) by (symmetry; apply (Nat.mod_unique p n j (p - j * n)); lia). rewrite Ed, Em. reflexivity. }
    exists b. split; [exact E1|]. split; [exact E2|]. intros j k Hj Hk. rewrite (E3 j (j * n + k)%nat); [|apply in_seq; lia|].
    - assert (Ed : ((j * n + k) / n = j)%nat) by (symmetry; apply (Nat.div_unique _ n j k); lia).
      assert (Em : ((j * n + k) mod n = k)%nat) by (symmetry; apply (Nat.mod_unique _ n j k); lia). rewrite Ed, Em. reflexivity.
    - apply andb_true_iff. split; [apply Nat.leb_le|apply Nat.ltb_lt]; lia.
  Qed.

  Lemma axpy_loop : forall m n (rb : buf) (d : list nat), (forall j, (j < m)%nat -> (nth j d 0 + n <= length rb)%nat) -> forall l, (forall j, In j l -> (j < m)%nat) ->
    forall o, (n <= length o)%nat ->
    exists b, fold_opt K (fun i o => do q <- ptr K rb (nth i d 0%nat); axpy K n 1 q o) l o = Some b /\ only_first n o b /\
      forall i, (i < n)%nat -> get b i = get o i + lsum l (fun j => get rb (nth j d 0 + i)%nat).
  Proof.
    intros m n rb d Hd. induction l as [|j l IH]; intros Hl o Ho.
    - exists o. split; [reflexivity|]. split; [split; auto|]. intros i Hi. cbn [lsum]. ring.
    - cbn [fold_opt]. specialize (Hd j (Hl j (or_introl eq_refl))). unfold ptr at 1. destruct (Nat.leb_spec (nth j d 0%nat) (length rb)); [|lia].
      destruct (axpy_ok K n 1 (skipn (nth j d 0%nat) rb) o) as (o1 & -> & L1 & V1); [rewrite skipn_length; lia|exact Ho|].
      destruct (IH (fun j' Hj' => Hl j' (or_intror Hj')) o1 ltac:(lia)) as (b & E1 & [E2 E2'] & E3). exists b. split; [exact E1|]. split; [split; [lia|]|].
      + intros p Hp. rewrite E2' by exact Hp. rewrite V1. destruct (Nat.ltb_spec p n); [lia|reflexivity].
      + intros i Hi. rewrite E3 by exact Hi. rewrite V1. destruct (Nat.ltb_spec i n); [|lia]. rewrite get_skipn. cbn [lsum]. ring.
  Qed.

  (** the exchange and the sum, for rows of mu coefficients *)
  Lemma exchange_ok : forall mu parts r o s out (val : nat -> C), nth_error (pa_parts S) r = Some (o, s) -> length parts = P -> (r < P)%nat ->
    (forall j, (j < P)%nat -> (NC * mu + P * (s * mu) <= length (at_rank K parts j) \/ (j <> r /\ NC * mu <= length (at_rank K parts j)))%nat) ->
    (s * mu <= length out)%nat ->
    (forall q, (q < NC * mu)%nat -> lsum (seq 0 P) (fun j => get (at_rank K parts j) q) = val q) ->
    let sc := map (fun os => (snd os * mu)%nat) (pa_parts S) in
    let rc := map (fun _ : nat => (s * mu)%nat) (seq 0 P) in
    exists y, (do rbuf <- ptr K (at_rank K parts r) (NC * mu);
               do rb <- alltoallv K P sc (prefix_sums 0 sc) rc (prefix_sums 0 rc) parts r rbuf;
               fold_opt K (fun i o => do q <- ptr K rb (nth i (prefix_sums 0 rc) 0%nat); axpy K (s * mu) 1 q o) (seq 0 P) out) = Some y /\
      only_first (s * mu) out y /\ forall k, (k < s * mu)%nat -> get y k = get out k + val (o * mu + k)%nat.
  Proof.
    intros mu parts r o s out val E HL Hr Hp Ho Hv sc rc. pose proof (Hp r Hr) as Hpr. destruct Hpr as [Hpr|[Hpr _]]; [|congruence].
    unfold ptr at 1. destruct (Nat.leb_spec (NC * mu) (length (at_rank K parts r))); [|lia].
    destruct (alltoallv_ok mu parts r o s (skipn (NC * mu) (at_rank K parts r)) E) as (rb & E1 & E2 & E3).
    { intros j Hj. destruct (Hp j Hj); lia. }
    { rewrite skipn_length. lia. }
    fold sc rc in E1. rewrite E1. rewrite skipn_length in E2.
    destruct (axpy_loop P (s * mu) rb (prefix_sums 0 rc)) with (l := seq 0 P) (o := out) as (y & F1 & F2 & F3).
    { intros j Hj. unfold rc. rewrite prefix_sums_const by exact Hj. cbn [Nat.add]. nia. }
    { intros j Hj. apply in_seq in Hj. lia. }
    { exact Ho. }
    exists y. split; [exact F1|]. split; [exact F2|]. intros k Hk. rewrite F3 by exact Hk. f_equal.
    rewrite <- (Hv (o * mu + k)%nat).
    - apply lsum_ext. intros j Hj. apply in_seq in Hj. unfold rc. rewrite prefix_sums_const by lia. cbn [Nat.add]. apply E3; lia.
    - pose proof (proj2 (tiles_in _ _ _ _ _ _ (po_tiles _ _ HS) E)). nia.
  Qed.

  Lemma lsum_parts : forall (parts : list buf) q, length parts = P ->
    lsum (seq 0 P) (fun j => get (at_rank K parts j) q) = lsum parts (fun b => get b q).
  Proof. intros parts q HL. rewrite <- HL. symmetry. exact (lsum_nth buf [] parts (fun b => get b q)). Qed.

  Lemma int_tvec_l2l_ok : (d_sym K D <> SyS /\ d_sym K D <> SyH) -> transposed_blocks D A run_tvec 1 -> forall ins outs works x,
    (forall r o s, (r < P)%nat -> nth_error (pa_parts T) r = Some (o, s) -> holds_vec (at_rank K ins r) s (fun i => x (ui T (o + i)%nat))) ->
    (forall r o s, (r < P)%nat -> nth_error (pa_parts S) r = Some (o, s) -> (s <= length (at_rank K outs r))%nat) ->
    (forall r o s, (r < P)%nat -> nth_error (pa_parts S) r = Some (o, s) -> (NC + P * s <= length (at_rank K works r))%nat) ->
    exists ys, int_tvec_l2l K D ins outs works = Some ys /\ length ys = P /\
      forall r o s, (r < P)%nat -> nth_error (pa_parts S) r = Some (o, s) ->
        only_first s (at_rank K outs r) (at_rank K ys r) /\ holds_vec (at_rank K ys r) s (fun j => tmul NR A x (ui S (o + j)%nat)).
  Proof.
    intros [Hs1 Hs2] HB ins outs works x Hin Hout Hw. unfold int_tvec_l2l.
    assert (E0 : forall X (a b : X), match d_sym K D with SyS | SyH => a | _ => b end = b).
    { intros X a b. destruct (d_sym K D); congruence. }
    rewrite E0. clear E0.
    assert (Hw' : forall r, (r < P)%nat -> (NC <= length (at_rank K works r))%nat).
    { intros r Hr. destruct (part_nth S P HS r Hr) as (o & s & E & _). specialize (Hw r o s Hr E). lia. }
    destruct (on_ranks_ok buf [] P (fun r => do b <- fill0 K (nc K D) (at_rank K works r);
        fold_opt K (fun v b => vl_tvec K v 1 (at_rank K ins r) 1 b) (ops_of K D r) b)
      (fun r b => only_first NC (at_rank K works r) b /\
         forall o s, nth_error (pa_parts T) r = Some (o, s) -> forall j, (j < NC)%nat ->
           get b j = sum s (fun i => part_matrix D A (o + i)%nat j * x (ui T (o + i)%nat))))
      as (parts & -> & HL & Hparts).
    { intros r Hr. destruct (part_nth T P HT r Hr) as (o & s & E & _). destruct (Hin r o s Hr E) as [L V].
      destruct (int_tpart_ok HB r o s (at_rank K ins r) (at_rank K works r) E L (Hw' r Hr)) as (y & E1 & F & G).
      exists y. split; [exact E1|]. split; [exact F|]. intros o' s' E'. rewrite E in E'. injection E' as <- <-. intros j Hj. rewrite G by exact Hj.
      apply sum_ext. intros i Hi. rewrite V by exact Hi. reflexivity. }
    rewrite (part_counts_ok S P HS 1).
    destruct (on_ranks_ok buf [] P (fun r =>
            do s <- part_size S r;
            do o <- fill0 K s (at_rank K outs r);
            let rc := map (fun _ => s) (seq 0 P) in
            do rbuf <- ptr K (at_rank K parts r) (nc K D);
            do rb <- alltoallv K P (map (fun os => (snd os * 1)%nat) (pa_parts S)) (prefix_sums 0 (map (fun os => (snd os * 1)%nat) (pa_parts S))) rc (prefix_sums 0 rc) parts r rbuf;
            fold_opt K (fun i o => do q <- ptr K rb (nth i (prefix_sums 0 rc) 0%nat); axpy K s 1 q o) (seq 0 P) o)
      (fun r b => forall o s, nth_error (pa_parts S) r = Some (o, s) ->
        only_first s (at_rank K outs r) b /\ holds_vec b s (fun j => tmul NR A x (ui S (o + j)%nat)))) as (ys & E1 & E2 & E3).
    { intros r Hr. destruct (part_nth S P HS r Hr) as (o & s & E & _). destruct (part_size_ok S r o s E) as [-> _].
      destruct (fill0_ok K s (at_rank K outs r) (Hout r o s Hr E)) as (o0 & -> & F0 & Z0).
      destruct (exchange_ok 1 parts r o s o0 (fun q => tmul NR A x (ui S q)) E HL Hr) as (y & G1 & G2 & G3).
      { intros j Hj. destruct (Hparts j Hj) as [[Lj _] _]. change (length (at_rank K parts j) = length (at_rank K works j)) in Lj. rewrite Lj. destruct (Nat.eq_dec j r) as [->|Hne].
        - left. specialize (Hw r o s Hr E). lia.
        - right. split; [exact Hne|]. specialize (Hw' j Hj). lia. }
      { destruct F0 as [F0 _]. rewrite F0, Nat.mul_1_r. exact (Hout r o s Hr E). }
      { intros q Hq. rewrite Nat.mul_1_r in Hq. rewrite (lsum_parts parts q HL).
        rewrite (sum_over_ranks parts (fun a => part_matrix D A a q * x (ui T a)) q HL); [apply tmul_part|].
        intros r' o' s' Hr' E'. exact (proj2 (Hparts r' Hr') o' s' E' q Hq). }
      rewrite (Nat.mul_1_r s), (Nat.mul_1_r NC) in G1. exists y. split; [exact G1|]. rewrite Nat.mul_1_r in G2, G3.
      intros o' s' E'. rewrite E in E'. injection E' as <- <-. split; [exact (only_first_trans _ _ _ _ F0 G2)|].
      split; [destruct G2 as [G2 _], F0 as [F0 _]; rewrite G2, F0; exact (Hout r o s Hr E)|].
      intros j Hj. rewrite G3, Z0 by exact Hj. rewrite Nat.mul_1_r. ring. }
    exists ys. split; [exact E1|]. split; [exact E2|]. intros r o s Hr E. exact (E3 r Hr o s E).
  Qed.

  Theorem tvec_l2l_plain_ok : (d_sym K D <> SyS /\ d_sym K D <> SyH) -> transposed_blocks D A run_tvec 1 -> forall ins outs works x,
    (forall r o s, (r < P)%nat -> nth_error (pa_parts T) r = Some (o, s) -> holds_vec (at_rank K ins r) s (part_of o x)) ->
    (forall r o s, (r < P)%nat -> nth_error (pa_parts S) r = Some (o, s) -> (s <= length (at_rank K outs r))%nat) ->
    (forall r o s, (r < P)%nat -> nth_error (pa_parts S) r = Some (o, s) -> (NC + P * s <= length (at_rank K works r))%nat) ->
    exists ys, tvec_l2l K D ins outs works = Some ys /\ length ys = P /\
      forall r o s, (r < P)%nat -> nth_error (pa_parts S) r = Some (o, s) ->
        only_first s (at_rank K outs r) (at_rank K ys r) /\ holds_vec (at_rank K ys r) s (part_of o (tmul NR A x)).
  Proof.
    intros Hsym HB ins outs works x Hin Hout Hw. unfold tvec_l2l.
    assert (E0 : forall X (a b c : X), match d_sym K D with SyS => a | SyH => b | _ => c end = c).
    { intros X a b c. destruct Hsym as [Hs1 Hs2]. destruct (d_sym K D); congruence. }
    rewrite E0. clear E0.
    assert (Ep : d_perm K D = true \/ d_perm K D = false) by (destruct (d_perm K D); auto). destruct Ep as [Ep|Ep]; rewrite Ep.
    - destruct (on_ranks_ok buf [] P (fun r => do s <- part_size T r; to_part_local K T r (at_rank K ins r) (vec0 K s))
        (fun r b => forall o s, nth_error (pa_parts T) r = Some (o, s) -> holds_vec b s (fun i => x (ui T (o + i)%nat)))) as (ip & -> & Lip & Hip).
      { intros r Hr. destruct (part_nth T P HT r Hr) as (o & s & E & _). destruct (part_size_ok T r o s E) as [-> _].
        destruct (local_input T x r o s (at_rank K ins r) HT HTl E (Hin r o s Hr E)) as [H1 _]. destruct (H1 Ep) as (y & E1 & E2).
        exists y. split; [exact E1|]. intros o' s' E'. rewrite E in E'. injection E' as <- <-. exact E2. }
      destruct (vecs0_ok1 S HS) as (op & -> & Lop & Hop).
      destruct (int_tvec_l2l_ok Hsym HB ip op works x) as (os & -> & Los & Hos).
      { intros r o s Hr E. exact (Hip r Hr o s E). }
      { intros r o s Hr E. rewrite (Hop r o s Hr E). lia. }
      { exact Hw. }
      destruct (on_ranks_ok buf [] P (fun r => to_user_local K S r (at_rank K os r) (at_rank K outs r))
        (fun r b => forall o s, nth_error (pa_parts S) r = Some (o, s) ->
          only_first s (at_rank K outs r) b /\ holds_vec b s (part_of o (tmul NR A x)))) as (ys & E1 & E2 & E3).
      { intros r Hr. destruct (part_nth S P HS r Hr) as (o & s & E & _). destruct (Hos r o s Hr E) as [_ [L V]].
        destruct (local_output S (tmul NR A x) r o s (at_rank K os r) (at_rank K outs r) HS HSl E L V (Hout r o s Hr E) Ep) as (b & G1 & G2 & G3).
        exists b. split; [exact G1|]. intros o' s' E'. rewrite E in E'. injection E' as <- <-. auto. }
      exists ys. split; [exact E1|]. split; [exact E2|]. intros r o s Hr E. exact (E3 r Hr o s E).
    - destruct (int_tvec_l2l_ok Hsym HB ins outs works x) as (os & -> & Los & Hos).
      { intros r o s Hr E. exact (proj2 (local_input T x r o s (at_rank K ins r) HT HTl E (Hin r o s Hr E)) Ep). }
      { exact Hout. }
      { exact Hw. }
      exists os. split; [reflexivity|]. split; [exact Los|]. intros r o s Hr E. destruct (Hos r o s Hr E) as [F [L V]]. split; [exact F|]. split; [exact L|].
      intros i Hi. rewrite V by exact Hi. unfold part_of. rewrite Ep. reflexivity.
  Qed.

  (** For the symmetric and Hermitian types the two partitions are the same. *)
  Theorem tvec_l2l_ok : sym_matrix D A -> (d_sym K D = SyS \/ d_sym K D = SyH -> pa_parts T = pa_parts S) ->
    match d_sym K D with SyS | SyH => row_blocks D A run_vec 1 | _ => transposed_blocks D A run_tvec 1 end -> forall ins outs works x,
    (forall r o s, (r < P)%nat -> nth_error (pa_parts T) r = Some (o, s) -> holds_vec (at_rank K ins r) s (part_of o x)) ->
    (forall r o s, (r < P)%nat -> nth_error (pa_parts S) r = Some (o, s) -> (s <= length (at_rank K outs r))%nat) ->
    (forall r o s, (r < P)%nat -> nth_error (pa_parts S) r = Some (o, s) -> (NC + P * s <= length (at_rank K works r))%nat) ->
    exists ys, tvec_l2l K D ins outs works = Some ys /\ length ys = P /\
      forall r o s, (r < P)%nat -> nth_error (pa_parts S) r = Some (o, s) ->
        only_first s (at_rank K outs r) (at_rank K ys r) /\ holds_vec (at_rank K ys r) s (part_of o (tmul NR A x)).
  Proof.
    intros Hsym Hparts HB ins outs works x Hin Hout Hw.
    assert (Hw' : forall r, (r < P)%nat -> (NC <= length (at_rank K works r))%nat).
    { intros r Hr. destruct (part_nth S P HS r Hr) as (o & s & E & _). specialize (Hw r o s Hr E). lia. }
    assert (Es : d_sym K D = SyS \/ d_sym K D = SyH \/ (d_sym K D <> SyS /\ d_sym K D <> SyH)).
    { destruct (d_sym K D); auto; right; right; split; discriminate. }
    unfold sym_matrix in Hsym. destruct Es as [Es|[Es|Es]].
    - rewrite Es in *. destruct Hsym as [En Hsym]. specialize (Hparts (or_introl eq_refl)). unfold tvec_l2l. rewrite Es.
      destruct (vec_l2l_ok HB ins outs works x) as (ys & E1 & E2 & E3).
      { intros r o s Hr E. apply (Hin r o s Hr). rewrite Hparts. exact E. }
      { intros r o s Hr E. apply (Hout r o s Hr). rewrite <- Hparts. exact E. }
      { exact Hw'. }
      exists ys. split; [exact E1|]. split; [exact E2|]. intros r o s Hr E. destruct (E3 r o s Hr) as [F [L V]]; [rewrite Hparts; exact E|].
      split; [exact F|]. split; [exact L|]. intros i Hi. rewrite V by exact Hi. unfold part_of. apply mul_sym; try assumption.
      pose proof (proj2 (tiles_in _ _ _ _ _ _ (po_tiles _ _ HS) E)). lia.
    - rewrite Es in *. destruct Hsym as [En Hsym]. specialize (Hparts (or_intror eq_refl)). unfold tvec_l2l. rewrite Es.
      destruct (on_ranks_ok buf [] P (fun r => do s <- part_size T r; conj_copy K s (at_rank K ins r))
        (fun r b => forall o s, nth_error (pa_parts T) r = Some (o, s) -> holds_vec b s (part_of o (fun a => cconj K (x a))))) as (ic & -> & Lc & Hc).
      { intros r Hr. destruct (part_nth T P HT r Hr) as (o & s & E & _). destruct (part_size_ok T r o s E) as [-> _].
        destruct (Hin r o s Hr E) as [L V]. destruct (conj_copy_ok s (at_rank K ins r) L) as (y & E1 & E2 & E3).
        exists y. split; [exact E1|]. intros o' s' E'. rewrite E in E'. injection E' as <- <-. split; [lia|]. intros i Hi. rewrite E3, V by exact Hi. reflexivity. }
      destruct (vec_l2l_ok HB ic outs works (fun a => cconj K (x a))) as (os & -> & E2 & E3).
      { intros r o s Hr E. apply (Hc r Hr o s). rewrite Hparts. exact E. }
      { intros r o s Hr E. apply (Hout r o s Hr). rewrite <- Hparts. exact E. }
      { exact Hw'. }
      destruct (on_ranks_ok buf [] P (fun r => do s <- part_size S r; conj_buf K s (at_rank K os r))
        (fun r b => forall o s, nth_error (pa_parts S) r = Some (o, s) ->
          only_first s (at_rank K outs r) b /\ holds_vec b s (part_of o (tmul NR A x)))) as (ys & F1 & F2 & F3).
      { intros r Hr. destruct (part_nth S P HS r Hr) as (o & s & E & Hos). destruct (part_size_ok S r o s E) as [-> _].
        destruct (E3 r o s Hr) as [F [L V]]; [rewrite Hparts; exact E|].
        destruct (conj_buf_ok s (at_rank K os r) L) as (y & G1 & G2 & G3). exists y. split; [exact G1|].
        intros o' s' E'. rewrite E in E'. injection E' as <- <-. split; [exact (only_first_trans _ _ _ _ F G2)|]. split; [destruct G2; lia|].
        intros i Hi. rewrite G3, V by exact Hi. unfold part_of. apply mul_herm; try assumption. lia. }
      exists ys. split; [exact F1|]. split; [exact F2|]. intros r o s Hr E. exact (F3 r Hr o s E).
    - apply tvec_l2l_plain_ok; try assumption. destruct Es as [Es1 Es2]. revert HB Es1 Es2. destruct (d_sym K D); intros HB Es1 Es2; first [exact HB|congruence].
  Qed.
End D.
