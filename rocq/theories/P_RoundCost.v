(** * Property C86, the number of roundings of a row. *)

From Coq Require Import List Arith ZArith Bool Lia Reals Lra Permutation.
From Verif Require Import ClusterModel ClusterSpec IOModel BlockModel BlockSpec BlockSym Algebra BlasModel HMatModel HMatSpec HMatProofs HMatLoops HMatProducts HMatBuild RealNum CompReal RoundModel RoundSpec RoundProofs RoundLoops RoundRef P_Round.
Import ListNotations.
Local Open Scope nat_scope.

Lemma iv_size : forall a n o s, o <= a -> list_sum (map (fun j => if in_iv (o + j) (a, n) then 1 else 0) (seq 0 s)) = Nat.min (a + n) (o + s) - Nat.min a (o + s).
Proof.
  intros a n o s Ha. induction s as [|s IH]; [cbn; lia|].
  rewrite seq_S, map_app, list_sum_app, IH. cbn [map list_sum fold_right Nat.add]. unfold in_iv. cbn [fst snd].
  destruct (Nat.leb_spec a (o + s)); destruct (Nat.ltb_spec (o + s) (a + n)); cbn [andb]; lia.
Qed.
Lemma list_sum_plus : forall {X} (f g : X -> nat) l, list_sum (map (fun x => f x + g x) l) = list_sum (map f l) + list_sum (map g l).
Proof. intros X f g l. induction l as [|x l IH]; [reflexivity|]. cbn [map]. change (list_sum ((f x + g x) :: map (fun x => f x + g x) l)) with (f x + g x + list_sum (map (fun x => f x + g x) l)). change (list_sum (f x :: map f l)) with (f x + list_sum (map f l)). change (list_sum (g x :: map g l)) with (g x + list_sum (map g l)). lia. Qed.
Lemma list_sum_ext : forall {X} (f g : X -> nat) l, (forall x, In x l -> f x = g x) -> list_sum (map f l) = list_sum (map g l).
Proof. intros X f g l H. f_equal. apply map_ext_in, H. Qed.
Lemma list_sum_const : forall {X} c (l : list X), list_sum (map (fun _ => c) l) = length l * c.
Proof. intros X c l. induction l as [|x l IH]; [reflexivity|]. cbn [map length]. change (list_sum (c :: map (fun _ => c) l)) with (c + list_sum (map (fun _ => c) l)). rewrite IH. reflexivity. Qed.

(** Counting the pairs (column, leaf) in the two orders. *)
Lemma two_orders : forall {X} (P : X -> bool) (sz : X -> nat) (Q : nat -> X -> bool) s l,
  (forall h, In h l -> (if P h then sz h else 0) = list_sum (map (fun j => if Q j h then 1 else 0) (seq 0 s))) ->
  list_sum (map (fun h => if P h then sz h else 0) l) = list_sum (map (fun j => count (Q j) l) (seq 0 s)).
Proof.
  intros X P sz Q s l. induction l as [|h l IH]; intros H.
  - cbn [map list_sum fold_right]. unfold count. cbn [filter length]. rewrite list_sum_const. lia.
  - cbn [map]. repeat match goal with |- context [list_sum (?a :: ?b)] => change (list_sum (a :: b)) with (a + list_sum b) end. rewrite (H h (or_introl eq_refl)), IH by (intros; apply H; right; assumption).
    rewrite <- list_sum_plus. apply list_sum_ext. intros j _. unfold count. cbn [filter]. destruct (Q j h); reflexivity.
Qed.

(** The leaves and mirror images that touch the row [i]. *)
Definition touching (t : trans) (L Y : list (hinfo Rc)) (i : nat) : nat :=
  length (filter (fun h => in_iv i (interval (out_cl Rc t h))) L) + length (filter (fun h => in_iv i (interval (in_cl Rc t h))) Y).

Lemma cost_le : forall (P : hinfo Rc -> bool) (sz : hinfo Rc -> nat) c l,
  (forall h, In h l -> leaf_cost (sz h) h <= sz h + c) ->
  list_sum (map (fun h => if P h then leaf_cost (sz h) h else 0) l) <= list_sum (map (fun h => if P h then sz h else 0) l) + c * length (filter P l).
Proof.
  intros P sz c l. induction l as [|h l IH]; intros H; [cbn; lia|]. cbn [map filter]. repeat match goal with |- context [list_sum (?a :: ?b)] => change (list_sum (a :: b)) with (a + list_sum b) end.
  specialize (IH (fun h' Hh => H h' (or_intror Hh))). pose proof (H h (or_introl eq_refl)). destruct (P h); cbn [length]; lia.
Qed.
Lemma count_le : forall (P : hinfo Rc -> bool) (sz : hinfo Rc -> nat) l, (forall h, In h l -> 1 <= sz h) ->
  length (filter P l) <= list_sum (map (fun h => if P h then sz h else 0) l).
Proof.
  intros P sz l. induction l as [|h l IH]; intros H; [cbn; lia|]. cbn [map filter]. repeat match goal with |- context [list_sum (?a :: ?b)] => change (list_sum (a :: b)) with (a + list_sum b) end.
  specialize (IH (fun h' Hh => H h' (or_intror Hh))). pose proof (H h (or_introl eq_refl)). destruct (P h); cbn [length]; lia.
Qed.

(** The columns of the leaves that touch a row are the columns of the matrix, each once. *)
Lemma row_columns : forall (r : hinfo Rc) L Y sy t i, well_formed r L Y sy -> i < c_size (out_cl Rc t r) ->
  list_sum (map (fun h => if in_iv (c_off (out_cl Rc t r) + i) (interval (out_cl Rc t h)) then c_size (in_cl Rc t h) else 0) L) +
  list_sum (map (fun h => if in_iv (c_off (out_cl Rc t r) + i) (interval (in_cl Rc t h)) then c_size (out_cl Rc t h) else 0) Y) = c_size (in_cl Rc t r).
Proof.
  intros r L Y sy t i W Hi. set (lo := c_off (out_cl Rc t r)). set (li := c_off (in_cl Rc t r)). set (ni := c_size (in_cl Rc t r)).
  rewrite (two_orders _ (fun h => c_size (in_cl Rc t h)) (fun j => tcov Rc t (lo + i) (li + j)) ni L).
  - rewrite (two_orders _ (fun h => c_size (out_cl Rc t h)) (fun j => tcov Rc t (li + j) (lo + i)) ni Y).
    + rewrite <- list_sum_plus. rewrite (list_sum_ext _ (fun _ => 1)).
      * rewrite list_sum_const, seq_length. lia.
      * intros j Hj. apply in_seq in Hj. apply (once_t Rc r L Y sy _ t i j (value_holds Rc r L Y sy W) Hi). fold ni. lia.
    + intros h Hh. destruct (wf_sub _ _ _ _ _ W h Hh) as (_ & C1 & C2). apply contains_iff in C1, C2.
      rewrite (list_sum_ext _ (fun j => if in_iv (lo + i) (interval (in_cl Rc t h)) && in_iv (li + j) (interval (out_cl Rc t h)) then 1 else 0)).
      * destruct (in_iv (lo + i) (interval (in_cl Rc t h))); cbn [andb]; [|rewrite list_sum_const; lia].
        change (interval (out_cl Rc t h)) with (c_off (out_cl Rc t h), c_size (out_cl Rc t h)). rewrite iv_size by (unfold li, in_cl, out_cl; destruct (is_N t); lia). unfold li, ni, in_cl, out_cl; destruct (is_N t); lia.
      * intros j _. unfold tcov, hcovers, in_cl, out_cl. destruct (is_N t); [|rewrite andb_comm]; try reflexivity; rewrite andb_comm; reflexivity.
  - intros h Hh. destruct (wf_in _ _ _ _ _ W h Hh) as (C1 & C2). apply contains_iff in C1, C2.
    rewrite (list_sum_ext _ (fun j => if in_iv (lo + i) (interval (out_cl Rc t h)) && in_iv (li + j) (interval (in_cl Rc t h)) then 1 else 0)).
    + destruct (in_iv (lo + i) (interval (out_cl Rc t h))); cbn [andb]; [|rewrite list_sum_const; lia].
      change (interval (in_cl Rc t h)) with (c_off (in_cl Rc t h), c_size (in_cl Rc t h)). rewrite iv_size by (unfold li, in_cl, out_cl; destruct (is_N t); lia). unfold li, ni, in_cl, out_cl; destruct (is_N t); lia.
    + intros j _. unfold tcov, hcovers, in_cl, out_cl. destruct (is_N t); [reflexivity|rewrite andb_comm; reflexivity].
Qed.

(** C86, the constant.  With ranks at most [rmax], the row [i] of the product with a matrix of n columns undergoes at most n + k (rmax + 6) roundings, k being the number of
    leaves and mirror images that touch the row, itself at most n: the order of magnitude of a dense product when k (rmax + 6) is less than n. *)
Theorem C86_number_of_roundings : forall (r : hinfo Rc) L Y sy t i rmax, well_formed r L Y sy -> i < c_size (out_cl Rc t r) ->
  (forall h M, In h L -> h_data h = DLow M -> lrank M <= rmax) ->
  row_cost t L Y (c_off (out_cl Rc t r) + i) <= c_size (in_cl Rc t r) + (rmax + 6) * touching t L Y (c_off (out_cl Rc t r) + i) /\
  1 <= touching t L Y (c_off (out_cl Rc t r) + i) + (if c_size (in_cl Rc t r) =? 0 then 1 else 0) /\
  touching t L Y (c_off (out_cl Rc t r) + i) <= c_size (in_cl Rc t r).
Proof.
  intros r L Y sy t i rmax W Hi HR. pose proof (row_columns r L Y sy t i W Hi) as RC.
  assert (LC : forall sz h, In h L -> leaf_cost sz h <= sz + (rmax + 6)).
  { intros sz h Hh. unfold leaf_cost. destruct (h_data h) as [|A|M] eqn:E; [lia|lia|]. pose proof (HR h M Hh E). lia. }
  pose proof (cost_le (fun h => in_iv (c_off (out_cl Rc t r) + i) (interval (out_cl Rc t h))) (fun h => c_size (in_cl Rc t h)) (rmax + 6) L (fun h Hh => LC _ h Hh)) as C1.
  pose proof (cost_le (fun h => in_iv (c_off (out_cl Rc t r) + i) (interval (in_cl Rc t h))) (fun h => c_size (out_cl Rc t h)) (rmax + 6) Y (fun h Hh => LC _ h (proj1 (wf_sub _ _ _ _ _ W h Hh)))) as C2.
  assert (S1 : forall h, In h L -> 1 <= c_size (in_cl Rc t h) /\ 1 <= c_size (out_cl Rc t h)).
  { intros h Hh. destruct (wf_leaves _ _ _ _ _ W h Hh) as [(A & B & _) _]. unfold in_cl, out_cl. destruct (is_N t); split; assumption. }
  pose proof (count_le (fun h => in_iv (c_off (out_cl Rc t r) + i) (interval (out_cl Rc t h))) (fun h => c_size (in_cl Rc t h)) L (fun h Hh => proj1 (S1 h Hh))) as K1.
  pose proof (count_le (fun h => in_iv (c_off (out_cl Rc t r) + i) (interval (in_cl Rc t h))) (fun h => c_size (out_cl Rc t h)) Y (fun h Hh => proj2 (S1 h (proj1 (wf_sub _ _ _ _ _ W h Hh))))) as K2.
  unfold row_cost, touching. split; [lia|]. split; [|lia].
  destruct (Nat.eqb_spec (c_size (in_cl Rc t r)) 0) as [E|E]; [lia|].
  destruct (filter (fun h => in_iv (c_off (out_cl Rc t r) + i) (interval (out_cl Rc t h))) L) as [|a la] eqn:EL; [|cbn [length]; lia].
  destruct (filter (fun h => in_iv (c_off (out_cl Rc t r) + i) (interval (in_cl Rc t h))) Y) as [|b lb] eqn:EY; [|cbn [length]; lia].
  exfalso. apply E. rewrite <- RC.
  assert (Z : forall (P : hinfo Rc -> bool) sz l, filter P l = [] -> list_sum (map (fun h => if P h then sz h else 0) l) = 0).
  { intros P sz l. induction l as [|h l IH]; intros F; [reflexivity|]. cbn [filter] in F. cbn [map]. repeat match goal with |- context [list_sum (?a :: ?b)] => change (list_sum (a :: b)) with (a + list_sum b) end. destruct (P h); [discriminate|]. apply IH, F. }
  rewrite (Z _ _ _ EL), (Z _ _ _ EY). reflexivity.
Qed.
Print Assumptions C86_number_of_roundings.

(** With this number: a bound that only mentions the number of threads, of columns, the largest rank and the number of leaves on a row. *)
Theorem C86_explicit_bound : forall u B (A : hmat Rc) L Y sy, accurate_blas u B ->
  hleaves Rc A = Some (L, Y) -> well_formed (rt_val A) L Y sy ->
  forall t, compat Rc t sy ->
  forall threads alpha beta x y rmax k, Permutation (concat (map fst threads)) L -> Permutation (concat (map snd threads)) Y ->
    c_size (in_cl Rc t (rt_val A)) <= length x -> c_size (out_cl Rc t (rt_val A)) <= length y ->
    (forall h M, In h L -> h_data h = DLow M -> lrank M <= rmax) ->
    (forall i, i < c_size (out_cl Rc t (rt_val A)) -> touching t L Y (c_off (out_cl Rc t (rt_val A)) + i) <= k) ->
    let N := 1 + 2 * length threads + c_size (in_cl Rc t (rt_val A)) + (rmax + 6) * k in
    (INR N * u < 1)%R ->
    exists y', r_omp_vec B threads t alpha A x beta y = Some y' /\
      forall i, i < c_size (out_cl Rc t (rt_val A)) ->
        (Rabs (get y' i - exact_row (rt_val A) (value L Y sy) t alpha beta x y i) <=
         INR N * u / (1 - INR N * u) * abs_row (rt_val A) (abs_value L Y) t alpha beta x y i)%R.
Proof.
  intros u B A L Y sy HB HA W t Hc threads alpha beta x y rmax k P1 P2 Hx Hy HR HK N HN.
  destruct (omp_round u B HB (rt_val A) L Y sy W t Hc A threads alpha beta x y eq_refl P1 P2 Hx Hy) as (y' & E1 & _ & E3 & _).
  exists y'. split; [exact E1|]. intros i Hi. pose proof (ab_u u B HB) as Hu. specialize (E3 i Hi).
  destruct (C86_number_of_roundings (rt_val A) L Y sy t i rmax W Hi HR) as (R1 & _ & _). specialize (HK i Hi).
  apply (near_mono u Hu _ N) in E3.
  - pose proof (near_pos _ _ _ _ _ E3) as AP. destruct E3 as [E3 _]. eapply Rle_trans; [exact E3|]. apply Rmult_le_compat_r; [exact AP|]. apply gam_bound; assumption.
  - unfold N. pose proof (Nat.mul_le_mono_l _ _ (rmax + 6) HK) as Q. clearbody N. lia.
Qed.
Print Assumptions C86_explicit_bound.

(** The matrix of P_Round.v: two leaves or mirror images on each row, ranks at most 1, two threads: N = 21. *)
Definition dbl' (x : R) : R := (x + x / 1000)%R.
Lemma dbl'_ok : forall x, (Rabs (dbl' x - x) <= 1 / 1000 * Rabs x)%R.
Proof. intros x. unfold dbl'. replace (x + x / 1000 - x)%R with (1 / 1000 * x)%R by field. rewrite Rabs_mult, (Rabs_right (1 / 1000)) by lra. apply Rle_refl. Qed.
Lemma ex_rows : forall i, i < 2 -> exact_row (rt_val exR) (value exL [ex_lr] SyS) TrN 1%R 1%R [1%R; 1%R] [0%R; 0%R] i = 0%R /\ abs_row (rt_val exR) (abs_value exL [ex_lr]) TrN 1%R 1%R [1%R; 1%R] [0%R; 0%R] i = 2%R.
Proof.
  intros i Hi. unfold exact_row, abs_row. destruct i as [|[|i]]; [| |lia]; cbn; unfold leaf_abs, low_abs, rsum; cbn; unfold rsum; cbn;
    rewrite ?Rabs_R0, ?Rabs_R1; replace (Rabs (-1)) with 1%R by (unfold Rabs; destruct (Rcase_abs (-1)); lra); split; lra.
Qed.
Example ex_C86_explicit : exists y', r_omp_vec (ref_blas dbl') exT1 TrN 1%R exR [1%R; 1%R] 1%R [0%R; 0%R] = Some y' /\
  forall i, i < 2 -> (Rabs (get (K := Rc) y' i) <= 2 * INR 21 / 1000 / (1 - INR 21 / 1000))%R.
Proof.
  destruct (exT_perm exT1 (or_introl eq_refl)) as [P1 P2].
  assert (HB : accurate_blas (1 / 1000) (ref_blas dbl')) by (apply C86_reference_blas; [lra|exact dbl'_ok]).
  assert (T : forall i, i < 2 -> touching TrN exL [ex_lr] (0 + i) <= 2) by (intros [|[|i]] Hi; [vm_compute; lia|vm_compute; lia|lia]).
  assert (RK : forall h M, In h exL -> h_data h = DLow M -> lrank M <= 1) by (intros h M [<-|[<-|[<-|[]]]] E; cbn in E; try discriminate; injection E as <-; cbn; lia).
  destruct (C86_explicit_bound (1 / 1000) (ref_blas dbl') exR exL [ex_lr] SyS HB exR_leaves exR_well_formed TrN (ex_one TrN) exT1 1%R 1%R [1%R; 1%R] [0%R; 0%R] 1 2 P1 P2 (le_n 2) (le_n 2) RK T) as (y' & E & Q).
  - change (1 + 2 * length exT1 + c_size (in_cl Rc TrN (rt_val exR)) + (1 + 6) * 2) with 21. cbn. lra.
  - exists y'. split; [exact E|]. intros i Hi. specialize (Q i Hi).
    change (1 + 2 * length exT1 + c_size (in_cl Rc TrN (rt_val exR)) + (1 + 6) * 2) with 21 in Q.
    destruct (ex_rows i Hi) as [X1 X2]. rewrite X1, X2, Rminus_0_r in Q. eapply Rle_trans; [exact Q|]. right. field. cbn. lra.
Qed.
