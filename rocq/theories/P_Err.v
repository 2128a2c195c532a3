(** * Property C73: norms and error measures.  Vocabulary: AccSpec.v (modulus, fnorm, vnorm), HMatSpec.v (wf_mat, wf_lrm). *)

From Coq Require Import List Arith Bool ZArith Lia Reals Lra.
From Verif Require Import ClusterModel IOModel BlockModel Algebra BlasModel BlasProofs HMatModel HMatSpec HMatBuild DistModel RealNum CompReal CompSpec AccSpec P_Acc ErrModel.
Import ListNotations.
Local Open Scope nat_scope.

(** The error of the first [r] terms of U V. *)
Definition partial_error {K} (L : lrm K) (A : nat -> nat -> car K) (r i j : nat) : car K :=
  csub K (A i j) (sum r (fun k => cmul K (me (lU L) i k) (me (lV L) k j))).

Section P.
  Variable K : Coef.
  Variable abs : car K -> R.
  Notation C := (car K).
  Add Ring Kr : (c_ring K).

  Lemma upd_ok : forall (l : list C) p x, p < length l -> exists r, upd K l p x = Some r /\ length r = length l /\ nth_error r p = Some x /\ forall q, q <> p -> nth_error r q = nth_error l q.
  Proof.
    induction l as [|a l IH]; intros p x H; [cbn in H; lia|]. destruct p as [|p]; cbn [upd].
    - eexists. split; [reflexivity|]. split; [reflexivity|]. split; [reflexivity|]. intros [|q] Hq; [congruence|reflexivity].
    - destruct (IH p x) as (r & -> & L & N & O); [cbn in H; lia|]. eexists. split; [reflexivity|]. cbn [length nth_error]. split; [lia|]. split; [exact N|]. intros [|q] Hq; [reflexivity|]. cbn [nth_error]. apply O. lia.
  Qed.
  Lemma fetch_ok : forall (A : mat K) r c i j, wf_mat A r c -> i < r -> j < c -> fetch K A i j = Some (me A i j).
  Proof.
    intros A r c i j (H1 & H2 & H3) Hi Hj. unfold fetch, me, get. apply nth_error_nth'. rewrite H1, H3. nia.
  Qed.

  (** The inner loop. *)
  Lemma inner_ok : forall (L : lrm K) nr nc q j k, wf_mat (lU L) nr q -> wf_mat (lV L) q nc -> j < nr -> k < nc -> forall r aux a, r <= q -> length aux = nr * nc -> nth_error aux (j + k * nr) = Some a ->
    exists aux', fold_left (fun ax l => do aux <- ax; do a <- nth_error aux (j + k * nr); do u <- fetch K (lU L) j l; do v <- fetch K (lV L) l k; upd K aux (j + k * nr) (csub K a (cmul K u v))) (seq 0 r) (Some aux) = Some aux' /\
      length aux' = length aux /\ nth_error aux' (j + k * nr) = Some (csub K a (sum r (fun l => cmul K (me (lU L) j l) (me (lV L) l k)))) /\ (forall p, p <> j + k * nr -> nth_error aux' p = nth_error aux p).
  Proof.
    intros L nr nc q j k WU WV Hj Hk. induction r as [|r IH]; intros aux a Hr Hl Ha.
    - exists aux. cbn [seq fold_left sum]. split; [reflexivity|]. split; [reflexivity|]. split; [|reflexivity]. rewrite Ha. f_equal. ring.
    - rewrite seq_S, fold_left_app. destruct (IH aux a) as (x & E & Lx & Nx & Ox); [lia|exact Hl|exact Ha|]. rewrite E. cbn [fold_left Nat.add]. rewrite Nx.
      rewrite (fetch_ok (lU L) nr q j r WU Hj) by lia. rewrite (fetch_ok (lV L) q nc r k WV) by (try exact Hk; lia).
      destruct (upd_ok x (j + k * nr) (csub K (csub K a (sum r (fun l => cmul K (me (lU L) j l) (me (lV L) l k)))) (cmul K (me (lU L) j r) (me (lV L) r k)))) as (y & E2 & Ly & Ny & Oy); [rewrite Lx, Hl; nia|].
      exists y. split; [exact E2|]. split; [congruence|]. split; [rewrite Ny; cbn [sum]; f_equal; ring|]. intros p Hp. rewrite (Oy p Hp). apply Ox, Hp.
  Qed.

  Lemma list_prod_sum : forall f n m, @lsum Rc (nat * nat) (list_prod (seq 0 n) (seq 0 m)) f = rsum n (fun i => rsum m (fun j => f (i, j))).
  Proof.
    intros f n m. unfold rsum. rewrite sum_lsum. generalize (seq 0 n). intros l. induction l as [|i l IH]; [reflexivity|]. cbn [list_prod]. rewrite lsum_app, IH. cbn [lsum]. f_equal. rewrite lsum_map, sum_lsum. reflexivity.
  Qed.
  Lemma in_pairs : forall n m p, In p (list_prod (seq 0 n) (seq 0 m)) -> fst p < n /\ snd p < m.
  Proof. intros n m [i j] H. apply in_prod_iff in H. rewrite !in_seq in H. cbn. lia. Qed.
  Lemma nodup_pairs : forall n m, NoDup (list_prod (seq 0 n) (seq 0 m)).
  Proof.
    intros n m. pose proof (seq_NoDup n 0) as N. revert N. generalize (seq 0 n). intros l N. induction l as [|i l IH]; [constructor|]. cbn [list_prod]. inversion N as [|a b N1 N2]; subst.
    assert (Q : forall a b : list (nat * nat), NoDup a -> NoDup b -> (forall x, In x a -> In x b -> False) -> NoDup (a ++ b)).
    { clear. induction a as [|x a IH]; intros b Ha Hb Hd; [exact Hb|]. cbn [app]. inversion Ha as [|y z N1 N2]; subst. constructor; [|apply IH; [exact N2|exact Hb|intros y Hy Hy'; apply (Hd y); [right; exact Hy|exact Hy']]].
      intros H. apply in_app_iff in H. destruct H as [H|H]; [exact (N1 H)|]. apply (Hd x); [left; reflexivity|exact H]. }
    apply Q; [|apply IH, N2|].
    - pose proof (seq_NoDup m 0) as S. clear - S. induction S as [|x l H S IH]; cbn [map]; constructor; [|exact IH]. intros Q. apply in_map_iff in Q. destruct Q as (y & E & Hy). congruence.
    - intros [a b] H1 H2. apply in_map_iff in H1. destruct H1 as (y & E & _). injection E as <- <-. apply in_prod_iff in H2. apply N1, H2.
  Qed.
  Lemma index_inj : forall n i j i' j', i < n -> i' < n -> i + j * n = i' + j' * n -> i = i' /\ j = j'.
  Proof. intros n i j i' j' Hi Hi' E. assert (A := index_mod i j n Hi). assert (B := index_div i j n Hi). rewrite E in A, B. rewrite index_mod in A by exact Hi'. rewrite index_div in B by exact Hi'. auto. Qed.

  Lemma frob_loop : forall (L : lrm K) nr nc q r (A : nat -> nat -> C), wf_mat (lU L) nr q -> wf_mat (lV L) q nc -> r <= q ->
    forall P aux err, NoDup P -> (forall p, In p P -> fst p < nr /\ snd p < nc) -> length aux = nr * nc -> (forall p, In p P -> nth_error aux (fst p + snd p * nr) = Some (A (fst p) (snd p))) ->
    exists aux', fold_left (fun st jk => do x <- st; let '(aux, err) := x in let j := fst jk in let k := snd jk in
        do aux' <- fold_left (fun ax l => do aux <- ax; do a <- nth_error aux (j + k * nr); do u <- fetch K (lU L) j l; do v <- fetch K (lV L) l k; upd K aux (j + k * nr) (csub K a (cmul K u v))) (seq 0 r) (Some aux);
        do e <- nth_error aux' (j + k * nr); Some (aux', (err + abs e * abs e)%R)) P (Some (aux, err)) =
      Some (aux', (err + @lsum Rc _ P (fun p => (abs (partial_error L A r (fst p) (snd p)) * abs (partial_error L A r (fst p) (snd p)))%R))%R).
  Proof.
    intros L nr nc q r A WU WV Hr. induction P as [|[j k] P IH]; intros aux err ND HP Hl Ha.
    - exists aux. cbn [fold_left lsum]. rewrite Rplus_0_r. reflexivity.
    - cbn [fold_left fst snd]. destruct (HP (j, k) (or_introl eq_refl)) as [Hj Hk]. cbn [fst snd] in Hj, Hk.
      destruct (inner_ok L nr nc q j k WU WV Hj Hk r aux (A j k) Hr Hl (Ha (j, k) (or_introl eq_refl))) as (x & E & Lx & Nx & Ox). rewrite E, Nx.
      inversion ND as [|a b N1 N2]; subst. destruct (IH x (err + abs (partial_error L A r j k) * abs (partial_error L A r j k))%R N2) as (y & Ey).
      + intros p Hp. apply HP. right; exact Hp.
      + congruence.
      + intros [j' k'] Hp. cbn [fst snd]. destruct (HP (j', k') (or_intror Hp)) as [Hj' Hk']. cbn [fst snd] in Hj', Hk'. rewrite Ox; [apply (Ha (j', k')); right; exact Hp|].
        intros Q. apply index_inj in Q; [|exact Hj'|exact Hj]. destruct Q as [-> ->]. exact (N1 Hp).
      + exists y. etransitivity; [exact Ey|]. f_equal. f_equal. cbn [lsum fst snd]. cbn [cadd Rc]. change (car Rc) with R. lra.
  Qed.
End P.

(** C73.  Frobenius_absolute_error returns the Frobenius norm of the difference between the block of the matrix and the first
    [r] terms of the approximation; r = -1 means all of them. *)
Theorem C73_frobenius_absolute_error :
  forall K md t s (L : lrm K) gen r, wf_lrm L (c_size t) (c_size s) -> (r = -1 \/ (0 <= r <= Z.of_nat (lrank L)))%Z ->
    absolute_error K md t s L gen r =
      Some (fnorm md (c_size t) (c_size s) (partial_error L (block_at gen t s) (if (r =? -1)%Z then lrank L else Z.to_nat r))).
Proof.
  intros K md t s L gen r [WU WV] Hr. unfold absolute_error. destruct WU as (U1 & U2 & U3), WV as (V1 & V2 & V3). rewrite U1, V2. rewrite Nat.leb_refl, Nat.sub_diag. cbn [repeat]. rewrite app_nil_r.
  set (q := if (r =? -1)%Z then lrank L else Z.to_nat r). assert (Hq : q <= lrank L) by (unfold q; destruct (r =? -1)%Z eqn:E; [lia|apply Z.eqb_neq in E; lia]). clearbody q.
  destruct (frob_loop K md L (c_size t) (c_size s) (lrank L) q (block_at gen t s) (conj U1 (conj U2 U3)) (conj V1 (conj V2 V3)) Hq (list_prod (seq 0 (c_size t)) (seq 0 (c_size s)))
    (HMatModel.md (dense_data K gen t s)) 0%R (nodup_pairs _ _) (in_pairs _ _)) as (x & E).
  - apply (of_fun_wf K).
  - intros [i j] Hp. apply in_pairs in Hp. cbn [fst snd] in *. destruct Hp as [Hi Hj].
    pose proof (of_fun_wf K (c_size t) (c_size s) (fun i j => gen (c_off t + i) (c_off s + j))) as W. pose proof (fetch_ok K _ _ _ i j W Hi Hj) as F. unfold fetch in F. rewrite of_fun_me in F by assumption. exact F.
  - cbv zeta in E |- *. rewrite E. f_equal. cbn [snd]. rewrite Rplus_0_l. rewrite list_prod_sum. reflexivity.
Qed.
Print Assumptions C73_frobenius_absolute_error.

(** With all the terms: the error of the approximation. *)
Theorem C73_whole_error :
  forall K md t s (L : lrm K) gen, wf_lrm L (c_size t) (c_size s) ->
    absolute_error K md t s L gen (-1) = Some (fnorm md (c_size t) (c_size s) (error_of L (block_at gen t s))).
Proof. intros K md t s L gen W. rewrite C73_frobenius_absolute_error by (try exact W; left; reflexivity). reflexivity. Qed.
Print Assumptions C73_whole_error.

(** More terms than there are: the factors are read beyond their end. *)
Theorem C73_too_many_terms_refuted :
  forall md, let t := CNode (mkCinfo 0 0 1 0 0 [0]) [] in
    absolute_error Rc md t t (mkLrm (mkMat (K:=Rc) 1 1 [1%R]) (mkMat (K:=Rc) 1 1 [1%R])) (fun _ _ => 1%R) 2 = None.
Proof. intros md. reflexivity. Qed.

(** normFrob. *)
Theorem C73_norm_frob :
  forall K md (A : mat K) r c, wf_mat A r c -> norm_frob K md A = Some (fnorm md r c (me A)).
Proof.
  intros K md A r c W. unfold norm_frob. destruct W as (H1 & H2 & H3). rewrite H1, H2.
  assert (G : forall P s, (forall p, In p P -> fst p < r /\ snd p < c) -> fold_left (fun st jk => do n <- st; do a <- fetch K A (fst jk) (snd jk); Some (n + md a * md a)%R) P (Some s) =
    Some (s + @lsum Rc _ P (fun p => (md (me A (fst p) (snd p)) * md (me A (fst p) (snd p)))%R))%R).
  { induction P as [|p P IH]; intros s HP; cbn [fold_left lsum]; [rewrite Rplus_0_r; reflexivity|]. destruct (HP p (or_introl eq_refl)) as [Hi Hj]. rewrite (fetch_ok K A r c _ _ (conj H1 (conj H2 H3)) Hi Hj).
    rewrite IH by (intros x Hx; apply HP; right; exact Hx). f_equal. cbn [cadd Rc]. change (car Rc) with R. lra. }
  rewrite G by apply in_pairs. rewrite Rplus_0_l, list_prod_sum. reflexivity.
Qed.
Print Assumptions C73_norm_frob.

(** norm2 of a real and of a complex vector. *)
Lemma dprod_sum : forall K (a b : list (car K)), length a <= length b -> dprod K a b = Some (sum (length a) (fun i => cmul K (get a i) (cconj K (get b i)))).
Proof.
  intros K a b H. unfold dprod. destruct (Nat.leb_spec (length a) (length b)); [|lia]. f_equal. clear. induction (length a) as [|n IH]; [reflexivity|]. rewrite seq_S, fold_left_app, IH. reflexivity.
Qed.
Theorem C73_norm2_real : forall u : list R, norm2 Rc Rabs u = Some (vnorm (K:=Rc) Rabs (length u) (@get Rc u)).
Proof.
  intros u. change (list R) with (list (car Rc)) in u. unfold norm2. rewrite (dprod_sum Rc) by lia. cbn beta iota. f_equal. unfold vnorm. f_equal.
  change (@sum Rc (length u) (fun i => cmul Rc (get u i) (cconj Rc (get u i)))) with (rsum (length u) (fun i => @get Rc u i * @get Rc u i)%R).
  rewrite Rabs_right.
  - apply rsum_ext. intros i _. cbv beta. set (x := @get Rc u i). clearbody x. cbn in x. unfold Rabs. destruct (Rcase_abs x); ring.
  - apply Rle_ge. apply rsum_nonneg. intros i _. set (x := @get Rc u i). clearbody x. cbn in x. nra.
Qed.
Print Assumptions C73_norm2_real.
Theorem C73_norm2_complex : forall u : list (R * R), norm2 Cc Cmod u = Some (vnorm (K:=Cc) Cmod (length u) (@get Cc u)).
Proof.
  intros u. change (list (R * R)) with (list (car Cc)) in u. unfold norm2. rewrite (dprod_sum Cc) by lia. cbn beta iota. f_equal. unfold vnorm. f_equal.
  rewrite (Csum (length u)). cbn [cmul cconj Cc].
  rewrite (rsum_ext (length u) (fun i => fst (Cmul (@get Cc u i) (Cconj (@get Cc u i)))) (fun i => Cmod (@get Cc u i) * Cmod (@get Cc u i))%R) by (intros i _; rewrite Cconj_mul; reflexivity).
  rewrite (rsum_ext (length u) (fun i => snd (Cmul (@get Cc u i) (Cconj (@get Cc u i)))) (fun i => 0%R)) by (intros i _; rewrite Cconj_mul; reflexivity). rewrite rsum_0.
  set (z := rsum (length u) (fun i => Cmod (@get Cc u i) * Cmod (@get Cc u i))%R). assert (0 <= z)%R by (apply rsum_nonneg; intros i _; nra). unfold Cmod. cbn [fst snd]. rewrite Rmult_0_l, Rplus_0_r. apply sqrt_square. exact H.
Qed.
Print Assumptions C73_norm2_complex.

(** max, min and argmax with respect to the modulus; the first position that has it. *)
Lemma scan_ok : forall (g : nat -> R) n, let r := fold_left (fun b i => if Rltb (g b) (g i) then i else b) (seq 1 n) 0 in
  r < S n /\ (forall i, i < S n -> (g i <= g r)%R) /\ (forall i, i < r -> (g i < g r)%R).
Proof.
  intros g. induction n as [|n IH]; intros r; [cbn [seq fold_left] in r|].
  - subst r. split; [lia|]. split; [intros i Hi; replace i with 0 by lia; lra|intros i Hi; lia].
  - unfold r. rewrite seq_S, fold_left_app. cbn [fold_left Nat.add]. set (b := fold_left (fun b i => if Rltb (g b) (g i) then i else b) (seq 1 n) 0) in *.
    destruct IH as (I1 & I2 & I3). destruct (Rltb_spec (g b) (g (S n))) as [H|H].
    + split; [lia|]. split; [intros i Hi; destruct (Nat.eq_dec i (S n)) as [->|]; [lra|]; pose proof (I2 i ltac:(lia)); lra|]. intros i Hi. pose proof (I2 i Hi). lra.
    + split; [lia|]. split; [|exact I3]. intros i Hi. destruct (Nat.eq_dec i (S n)) as [->|]; [lra|]. apply I2. lia.
Qed.
Theorem C73_max_modulus :
  forall K md (u : list (car K)), u <> [] -> exists x, vmax K md u = Some x /\ nth_error u (vargmax K md u) = Some x /\
    (forall y, In y u -> (md y <= md x)%R) /\ forall i y, i < vargmax K md u -> nth_error u i = Some y -> (md y < md x)%R.
Proof.
  intros K md u Hu. destruct (scan_ok (fun i => md (get u i)) (length u - 1)) as (H1 & H2 & H3). cbv zeta in *. unfold vmax. fold (vargmax K md u) in *.
  assert (Hl : S (length u - 1) = length u) by (destruct u; [congruence|cbn; lia]). rewrite Hl in *. exists (get u (vargmax K md u)).
  assert (E : nth_error u (vargmax K md u) = Some (get u (vargmax K md u))) by (apply nth_error_nth'; exact H1). split; [exact E|]. split; [exact E|]. split.
  - intros y Hy. apply In_nth_error in Hy. destruct Hy as (i & Hi). assert (i < length u) by (apply nth_error_Some; congruence). specialize (H2 i H). unfold get at 1 in H2. rewrite (nth_error_nth _ _ _ Hi) in H2. exact H2.
  - intros i y Hi Hy. specialize (H3 i Hi). unfold get at 1 in H3. rewrite (nth_error_nth _ _ _ Hy) in H3. exact H3.
Qed.
Print Assumptions C73_max_modulus.
Lemma scan_min : forall (g : nat -> R) n, let r := fold_left (fun b i => if Rltb (g i) (g b) then i else b) (seq 1 n) 0 in
  r < S n /\ (forall i, i < S n -> (g r <= g i)%R) /\ (forall i, i < r -> (g r < g i)%R).
Proof.
  intros g n. pose proof (scan_ok (fun i => (- g i)%R) n) as H. cbv zeta in *.
  assert (E : forall b i, Rltb (- g b) (- g i) = Rltb (g i) (g b)) by (intros b i; destruct (Rltb_spec (- g b) (- g i)), (Rltb_spec (g i) (g b)); try reflexivity; lra).
  assert (F : forall l b, fold_left (fun b i => if Rltb (- g b) (- g i) then i else b) l b = fold_left (fun b i => if Rltb (g i) (g b) then i else b) l b) by (induction l as [|a l IH]; intros b; cbn [fold_left]; [reflexivity|]; rewrite IH, E; reflexivity).
  rewrite F in H. destruct H as (H1 & H2 & H3). split; [exact H1|]. split; intros i Hi; [specialize (H2 i Hi)|specialize (H3 i Hi)]; lra.
Qed.
Theorem C73_min_modulus :
  forall K md (u : list (car K)), u <> [] -> exists x, vmin K md u = Some x /\ In x u /\ forall y, In y u -> (md x <= md y)%R.
Proof.
  intros K md u Hu. destruct (scan_min (fun i => md (get u i)) (length u - 1)) as (H1 & H2 & _). cbv zeta in *. unfold vmin. fold (vargmin K md u) in *.
  assert (Hl : S (length u - 1) = length u) by (destruct u; [congruence|cbn; lia]). rewrite Hl in *. exists (get u (vargmin K md u)).
  assert (E : nth_error u (vargmin K md u) = Some (get u (vargmin K md u))) by (apply nth_error_nth'; exact H1). split; [exact E|]. split; [eapply nth_error_In; exact E|].
  intros y Hy. apply In_nth_error in Hy. destruct Hy as (i & Hi). assert (i < length u) by (apply nth_error_Some; congruence). specialize (H2 i H). unfold get at 2 in H2. rewrite (nth_error_nth _ _ _ Hi) in H2. exact H2.
Qed.
Print Assumptions C73_min_modulus.

(** Storage of a low-rank block: the numbers of coefficients of the factors and of the block. *)
Theorem C73_storage :
  forall K (L : lrm K) r c, wf_lrm L r c -> 1 <= r -> 1 <= c ->
    let stored := INR (length (HMatModel.md (lU L)) + length (HMatModel.md (lV L))) in
    space_saving K L = Some (1 - stored / INR (r * c))%R /\ (1 <= lrank L -> compression_ratio K L = Some (INR (r * c) / stored)%R).
Proof.
  intros K L r c [(U1 & U2 & U3) (V1 & V2 & V3)] Hr Hc stored. unfold stored, space_saving, compression_ratio. rewrite U1, V2, U3, V3. fold (lrank L).
  assert (Q : INR (r * lrank L + lrank L * c) = (INR (lrank L) * (INR r + INR c))%R) by (rewrite plus_INR, !mult_INR; ring). rewrite Q.
  assert (0 < INR r)%R by (apply lt_0_INR; lia). assert (0 < INR c)%R by (apply lt_0_INR; lia). split.
  - replace ((r =? 0) || (c =? 0)) with false by (symmetry; apply orb_false_iff; split; apply Nat.eqb_neq; lia). f_equal. rewrite mult_INR. field. split; lra.
  - intros Hk. replace (lrank L * (r + c) =? 0) with false by (symmetry; apply Nat.eqb_neq; nia). rewrite (mult_INR (lrank L)), plus_INR. reflexivity.
Qed.
Print Assumptions C73_storage.

(** A rank 1 approximation of a 2 x 2 matrix: the error is that of the entry (1,1). *)
Definition ex_t : ctree := CNode (mkCinfo 0 0 2 0 0 [0; 1]) [].
Definition ex_L : lrm Rc := mkLrm (mkMat (K:=Rc) 2 1 [1; 2]%R) (mkMat (K:=Rc) 1 2 [1; 3]%R).
Example ex_wf : wf_lrm ex_L (c_size ex_t) (c_size ex_t).
Proof. repeat split. Qed.
Example ex_error : absolute_error Rc Rabs ex_t ex_t ex_L (fun i j => if (i =? 1) && (j =? 1) then 10%R else me (lU ex_L) i 0 * me (lV ex_L) 0 j)%R (-1) = Some 4%R.
Proof.
  rewrite (C73_whole_error Rc Rabs ex_t ex_t ex_L _ ex_wf). f_equal. unfold fnorm, rsum, error_of, lr_entry, block_at, me, get, lrank, c_off, c_size. cbn.
  assert (A : forall x, x = 0%R -> (Rabs x * Rabs x = 0)%R) by (intros x ->; rewrite Rabs_R0; ring). rewrite !(A _) by ring.
  match goal with |- context [Rabs ?x] => replace x with 4%R by ring end. rewrite Rabs_right by lra. replace (0 + (0 + 0 + 0) + (0 + 0 + 4 * 4))%R with (4 * 4)%R by ring. apply sqrt_square. lra.
Qed.
