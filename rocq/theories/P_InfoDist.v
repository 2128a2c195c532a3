(** * Property C72: statistics of a distributed matrix.  Vocabulary: InfoDistModel.v and the definitions is_max, is_min, is_mean,
    stored, dense_leaves, low_leaves of P_Info.v. *)

From Coq Require Import Ascii List Arith Bool ZArith QArith Lia Permutation.
From Verif Require Import ClusterModel IOModel IOSpec IOProofs P_IO BlockModel BlockSpec Algebra BlasModel HMatModel HMatSpec DistModel InfoModel P_Info InfoDistModel.
Import ListNotations.
Local Open Scope nat_scope.

(** ** Specification *)

(** The blocks of all the processes. *)
Definition all_dense {K} (As : list (rtree (hinfo K))) : list (hinfo K) := concat (map dense_leaves As).
Definition all_low {K} (As : list (rtree (hinfo K))) : list (hinfo K) := concat (map low_leaves As).
Definition rows_of {K} (A : rtree (hinfo K)) : nat := c_size (h_t (rt_val A)).
Definition cols_of {K} (A : rtree (hinfo K)) : nat := c_size (h_s (rt_val A)).
(** The condition of the minima: unless there is no block at all, for each process some block (of any process) is not larger than
    the product of the sizes of the matrix of the process, as the code computes it. *)
Definition min_guard {K} (f : hinfo K -> nat) (l : list (hinfo K)) (As : list (rtree (hinfo K))) : Prop :=
  l = [] \/ forall A, In A As -> exists h, In h l /\ f h <= umul (cols_of A) (rows_of A).

(** ** Proofs *)

Lemma reduce_fold : forall A (op : A -> A -> A) n (d : A) l b, length b = n -> (forall x, In x l -> length x = n) ->
  exists r, fold_left (fun acc b => do a <- acc; reduce2 op a b) l (Some b) = Some r /\ length r = n /\
    forall i, i < n -> nth i r d = fold_left op (map (fun x => nth i x d) l) (nth i b d).
Proof.
  intros A op n d. induction l as [|x l IH]; intros b Hb Hl; cbn [fold_left map]; [exists b; auto|].
  unfold reduce2 at 2. rewrite Hb, (Hl x (or_introl eq_refl)), Nat.eqb_refl.
  destruct (IH (map (fun p => op (fst p) (snd p)) (combine b x))) as (r & E & Lr & Nr).
  - rewrite map_length, combine_length, Hb, (Hl x (or_introl eq_refl)). lia.
  - intros y Hy. apply Hl. right; exact Hy.
  - exists r. split; [exact E|]. split; [exact Lr|]. intros i Hi. rewrite (Nr i Hi). f_equal.
    rewrite (nth_indep _ d (op d d)) by (rewrite map_length, combine_length, Hb, (Hl x (or_introl eq_refl)); lia).
    change (op d d) with ((fun p : A * A => op (fst p) (snd p)) (d, d)). rewrite map_nth. rewrite combine_nth by (rewrite Hb, (Hl x (or_introl eq_refl)); reflexivity). reflexivity.
Qed.
Lemma mpi_reduce_nth : forall A (op : A -> A -> A) n (d : A) b l, (forall x, In x (b :: l) -> length x = n) ->
  exists r, mpi_reduce op (b :: l) = Some r /\ length r = n /\ forall i, i < n -> nth i r d = fold_left op (map (fun x => nth i x d) l) (nth i b d).
Proof. intros A op n d b l H. unfold mpi_reduce. apply reduce_fold; [apply H; left; reflexivity|intros x Hx; apply H; right; exact Hx]. Qed.

Lemma fold_max_in : forall l a, let r := fold_left Nat.max l a in (forall x, In x (a :: l) -> x <= r) /\ In r (a :: l).
Proof.
  induction l as [|b l IH]; intros a r; cbn [fold_left] in r; [subst r; split; [intros x [<-|[]]; lia|left; reflexivity]|].
  destruct (IH (Nat.max a b)) as [I1 I2]. fold r in I1, I2. split.
  - intros x [<-|[<-|Hx]]; [specialize (I1 _ (or_introl eq_refl)); lia|specialize (I1 _ (or_introl eq_refl)); lia|apply I1; right; exact Hx].
  - destruct I2 as [I2|I2]; [|right; right; exact I2]. destruct (Nat.max_dec a b) as [E|E]; rewrite E in I2; [left; exact I2|right; left; exact I2].
Qed.
Lemma fold_min_in : forall l a, let r := fold_left Nat.min l a in (forall x, In x (a :: l) -> r <= x) /\ In r (a :: l).
Proof.
  induction l as [|b l IH]; intros a r; cbn [fold_left] in r; [subst r; split; [intros x [<-|[]]; lia|left; reflexivity]|].
  destruct (IH (Nat.min a b)) as [I1 I2]. fold r in I1, I2. split.
  - intros x [<-|[<-|Hx]]; [specialize (I1 _ (or_introl eq_refl)); lia|specialize (I1 _ (or_introl eq_refl)); lia|apply I1; right; exact Hx].
  - destruct I2 as [I2|I2]; [|right; right; exact I2]. destruct (Nat.min_dec a b) as [E|E]; rewrite E in I2; [left; exact I2|right; left; exact I2].
Qed.
Lemma fold_add : forall l a, fold_left Nat.add l a = a + total (fun x => x) l.
Proof. induction l as [|b l IH]; intros a; cbn [fold_left]; [unfold total; cbn; lia|]. rewrite IH. unfold total. cbn [fold_right]. lia. Qed.
Lemma total_map : forall A B (g : A -> B) f l, total f (map g l) = total (fun a => f (g a)) l.
Proof. intros A B g f. induction l as [|a l IH]; [reflexivity|]. unfold total in *. cbn [map fold_right]. rewrite IH. reflexivity. Qed.
Lemma total_concat : forall A B (f : B -> nat) (g : A -> list B) l, total f (concat (map g l)) = total (fun a => total f (g a)) l.
Proof.
  intros A B f g. induction l as [|a l IH]; [reflexivity|]. cbn [map concat]. unfold total at 1 2. cbn [fold_right]. fold (total (fun a => total f (g a)) l). rewrite <- IH.
  unfold total. rewrite fold_right_app. generalize (fold_right (fun a0 s => f a0 + s) 0 (concat (map g l))). clear. intros n. induction (g a) as [|b m IH]; [reflexivity|]. cbn [fold_right]. rewrite IH. lia.
Qed.
Lemma len_concat : forall A B (g : A -> list B) l, length (concat (map g l)) = total (fun a => length (g a)) l.
Proof. intros A B g. induction l as [|a l IH]; [reflexivity|]. cbn [map concat]. rewrite app_length, IH. reflexivity. Qed.
Lemma qn_add : forall a b, (qn (a + b) == qn a + qn b)%Q.
Proof. intros a b. unfold qn. rewrite Nat2Z.inj_add, inject_Z_plus. reflexivity. Qed.
Lemma qn_mul : forall a b, (qn (a * b) == qn a * qn b)%Q.
Proof. intros a b. unfold qn. rewrite Nat2Z.inj_mul, inject_Z_mult. reflexivity. Qed.
Lemma all_some_map : forall A B (g : A -> option B) (h : A -> B) l, (forall a, In a l -> g a = Some (h a)) -> all_some (map g l) = Some (map h l).
Proof. intros A B g h. induction l as [|a l IH]; intros H; [reflexivity|]. cbn [map all_some]. rewrite (H a (or_introl eq_refl)). rewrite IH by (intros x Hx; apply H; right; exact Hx). reflexivity. Qed.

Section P.
  Variable K : Coef.
  Notation hmat := (rtree (hinfo K)).
  Definition m0 (A : hmat) : nat := umul (cols_of A) (rows_of A).
  (** The three values of one loop. *)
  Definition mx (f : hinfo K -> nat) (l : list (hinfo K)) (m : nat) : nat := fst (fst (stat K m f l)).
  Definition mn (f : hinfo K -> nat) (l : list (hinfo K)) (m : nat) : nat := snd (fst (stat K m f l)).
  Lemma stat_parts : forall m f l, stat K m f l = (mx f l m, mn f l m, total f l).
  Proof. intros m f l. unfold mx, mn. destruct (stat_ok K m f l) as (a & i & E & _). rewrite E. reflexivity. Qed.
  Lemma mx_ok : forall m f l, is_max f l (mx f l m).
  Proof. intros m f l. unfold mx. destruct (stat_ok K m f l) as (a & i & E & H & _). rewrite E. exact H. Qed.
  Lemma mn_ok : forall m f l, mn f l m <= m /\ (forall h, In h l -> mn f l m <= f h) /\ (mn f l m = m \/ exists h, In h l /\ f h = mn f l m).
  Proof. intros m f l. unfold mn. destruct (stat_ok K m f l) as (a & i & E & _ & H). rewrite E. exact H. Qed.

  Lemma local_infos_ok : forall A : hmat, local_infos K A =
    Some ([mx (h_size K) (dense_leaves A) (m0 A); mx (h_size K) (low_leaves A) (m0 A); mx (h_rank K) (low_leaves A) (m0 A); rows_of A; cols_of A],
          [total (h_size K) (dense_leaves A); total (h_size K) (low_leaves A); total (h_rank K) (low_leaves A); rows_of A; cols_of A],
          [mn (h_size K) (dense_leaves A) (m0 A); mn (h_size K) (low_leaves A) (m0 A); mn (h_rank K) (low_leaves A) (m0 A); rows_of A; cols_of A],
          [length (dense_leaves A); length (low_leaves A); m0 A; generated_local K (dense_leaves A) (low_leaves A)]).
  Proof. intros A. unfold local_infos. rewrite blocks_ok. change (umul (c_size (h_s (rt_val A))) (c_size (h_t (rt_val A)))) with (m0 A). rewrite !stat_parts. reflexivity. Qed.

  Lemma max_all : forall f (g : hmat -> list (hinfo K)) A l,
    is_max f (concat (map g (A :: l))) (fold_left Nat.max (map (fun B => mx f (g B) (m0 B)) l) (mx f (g A) (m0 A))).
  Proof.
    intros f g A l. destruct (fold_max_in (map (fun B => mx f (g B) (m0 B)) l) (mx f (g A) (m0 A))) as [I1 I2]. cbv zeta in *.
    set (r := fold_left Nat.max (map (fun B => mx f (g B) (m0 B)) l) (mx f (g A) (m0 A))) in *.
    change (mx f (g A) (m0 A) :: map (fun B => mx f (g B) (m0 B)) l) with (map (fun B => mx f (g B) (m0 B)) (A :: l)) in *. clearbody r.
    assert (U : forall h, In h (concat (map g (A :: l))) -> f h <= r).
    { intros h Hh. apply in_concat in Hh. destruct Hh as (s & Hs & Hh). apply in_map_iff in Hs. destruct Hs as (B & <- & HB). destruct (mx_ok (m0 B) f (g B)) as [M _]. specialize (M h Hh).
      pose proof (I1 (mx f (g B) (m0 B)) (in_map (fun B => mx f (g B) (m0 B)) _ _ HB)). lia. }
    apply in_map_iff in I2. destruct I2 as (B & EB & HB). destruct (mx_ok (m0 B) f (g B)) as (M1 & M2 & M3). split; [exact U|]. split.
    - intros E. assert (G : g B = []). { apply in_split in HB. destruct HB as (u & v & HB). rewrite HB, map_app, concat_app in E. apply app_eq_nil in E. destruct E as [_ E]. cbn [map concat] in E. apply app_eq_nil in E. apply E. }
      rewrite <- EB. apply M2, G.
    - intros E. destruct (g B) as [|h s] eqn:G.
      + (* the maximum is 0: any block will do *)
        rewrite (M2 eq_refl) in EB. destruct (concat (map g (A :: l))) as [|h s]; [congruence|]. exists h. split; [left; reflexivity|]. specialize (U h (or_introl eq_refl)). lia.
      + destruct (M3 ltac:(discriminate)) as (h' & Hh & Eh). exists h'. split; [|congruence]. apply in_concat. exists (g B). split; [apply in_map; exact HB|rewrite G; exact Hh].
  Qed.
  Lemma min_all : forall f (g : hmat -> list (hinfo K)) A l, min_guard f (concat (map g (A :: l))) (A :: l) ->
    is_min f (concat (map g (A :: l))) (or0 (length (concat (map g (A :: l)))) (fold_left Nat.min (map (fun B => mn f (g B) (m0 B)) l) (mn f (g A) (m0 A)))).
  Proof.
    intros f g A l HG. destruct (fold_min_in (map (fun B => mn f (g B) (m0 B)) l) (mn f (g A) (m0 A))) as [I1 I2]. cbv zeta in *.
    set (r := fold_left Nat.min (map (fun B => mn f (g B) (m0 B)) l) (mn f (g A) (m0 A))) in *.
    change (mn f (g A) (m0 A) :: map (fun B => mn f (g B) (m0 B)) l) with (map (fun B => mn f (g B) (m0 B)) (A :: l)) in *. clearbody r.
    assert (U : forall h, In h (concat (map g (A :: l))) -> r <= f h).
    { intros h Hh. apply in_concat in Hh. destruct Hh as (s & Hs & Hh). apply in_map_iff in Hs. destruct Hs as (B & <- & HB). destruct (mn_ok (m0 B) f (g B)) as (_ & M & _). specialize (M h Hh).
      pose proof (I1 (mn f (g B) (m0 B)) (in_map (fun B => mn f (g B) (m0 B)) _ _ HB)). lia. }
    destruct HG as [HG|HG]; [rewrite HG; split; [intros h []|split; [reflexivity|congruence]]|].
    assert (Hne : concat (map g (A :: l)) <> []). { destruct (HG A (or_introl eq_refl)) as (h & Hh & _). intros E. rewrite E in Hh. destruct Hh. }
    assert (El : or0 (length (concat (map g (A :: l)))) r = r) by (destruct (concat (map g (A :: l))); [congruence|reflexivity]). rewrite El.
    split; [exact U|]. split; [congruence|]. intros _. apply in_map_iff in I2. destruct I2 as (B & EB & HB). destruct (mn_ok (m0 B) f (g B)) as (M1 & M2 & [M3|(h & Hh & Eh)]).
    - destruct (HG B HB) as (h & Hh & Hf). exists h. split; [exact Hh|]. specialize (U h Hh). fold (m0 B) in Hf. lia.
    - exists h. split; [|congruence]. apply in_concat. exists (g B). split; [apply in_map; exact HB|exact Hh].
  Qed.
  Lemma mean_all : forall f (g : hmat -> list (hinfo K)) l,
    is_mean f (concat (map g l)) (dmean (total (fun A => total f (g A)) l) (total (fun A => length (g A)) l)).
  Proof.
    intros f g l. unfold is_mean, dmean. rewrite len_concat, total_concat. destruct (total (fun A => length (g A)) l) as [|n] eqn:E; cbn [Nat.eqb]; [reflexivity|].
    rewrite Qmult_comm. apply Qmult_div_r. apply qn_pos. lia.
  Qed.
  Lemma gen_local : forall d l : list (hinfo K), (forall h, In h d -> h_dense K h = true) -> (forall h, In h l -> h_low K h = true) ->
    (forall h, In h d -> h_sym h <> SyN -> c_size (h_t h) = c_size (h_s h)) -> (qn (generated_local K d l) == qtotal stored d + qtotal stored l)%Q.
  Proof.
    intros d l Hd Hl Hs. unfold generated_local.
    assert (Ev : forall n, n * (n + 1) / 2 * 2 = n * (n + 1)). { intros n. rewrite Nat.mul_comm. symmetry. apply Nat.div_exact; [lia|]. induction n as [|n IH]; [reflexivity|]. replace (S n * (S n + 1)) with (n * (n + 1) + (n + 1) * 2) by lia. rewrite Nat.mod_add by lia. exact IH. }
    assert (G1 : forall l s, (forall h, In h l -> h_low K h = true) -> (qn (fold_left (fun s h => s + h_rank K h * (c_size (h_t h) + c_size (h_s h)))%nat l s) == qn s + qtotal stored l)%Q).
    { clear. induction l as [|h l IH]; intros s Hl; cbn [fold_left]; [unfold qtotal; cbn [fold_right]; ring|]. rewrite IH by (intros x Hx; apply Hl; right; exact Hx). unfold qtotal. cbn [fold_right]. rewrite qn_add, qn_mul, qn_add.
      unfold stored at 2. unfold h_rank. specialize (Hl h (or_introl eq_refl)). unfold h_low in Hl. destruct (h_data h); try discriminate. ring. }
    assert (G2 : forall l s, (forall h, In h l -> h_dense K h = true) -> (forall h, In h l -> h_sym h <> SyN -> c_size (h_t h) = c_size (h_s h)) ->
      (qn (fold_left (fun s h => match h_sym h with SyN => s + c_size (h_t h) * c_size (h_s h) | _ => s + c_size (h_t h) * (c_size (h_s h) + 1) / 2 end)%nat l s) == qn s + qtotal stored l)%Q).
    { clear - Ev. induction l as [|h l IH]; intros s Hl Hs; cbn [fold_left]; [unfold qtotal; cbn [fold_right]; ring|]. rewrite IH; [|intros x Hx; apply Hl; right; exact Hx|intros x Hx; apply Hs; right; exact Hx]. unfold qtotal. cbn [fold_right].
      unfold stored at 2. specialize (Hl h (or_introl eq_refl)). unfold h_dense in Hl. specialize (Hs h (or_introl eq_refl)). destruct (h_data h); try discriminate.
      assert (S2 : h_sym h <> SyN -> (qn (c_size (h_t h) * (c_size (h_s h) + 1) / 2)%nat == qn (c_size (h_t h)) * (qn (c_size (h_s h)) + 1) / 2)%Q).
      { intros Q. specialize (Hs Q). rewrite Hs. specialize (Ev (c_size (h_s h))). assert (E2 : (qn (c_size (h_s h) * (c_size (h_s h) + 1) / 2)%nat * 2 == qn (c_size (h_s h)) * (qn (c_size (h_s h)) + 1))%Q).
        { change 2%Q with (qn 2). rewrite <- qn_mul, Ev, qn_mul, qn_add. reflexivity. } rewrite <- E2. unfold Qdiv. rewrite <- Qmult_assoc. rewrite (Qmult_inv_r 2%Q) by discriminate. ring. }
      destruct (h_sym h); [rewrite qn_add, qn_mul; ring| | |]; rewrite qn_add, S2 by discriminate; ring. }
    rewrite G2, G1; [|exact Hl|exact Hd|exact Hs]. change (qn 0) with 0%Q. ring.
  Qed.
End P.

(** C72.  Process 0 reports the statistics of the blocks of all the processes. *)
Theorem C72_statistics :
  forall K (As : list (rtree (hinfo K))), As <> [] -> let D := all_dense As in let W := all_low As in
    exists I, block_information K As = Some I /\
      di_tasks I = length As /\ di_ndense I = length D /\ di_nlow I = length W /\
      is_max rows_of As (di_tmax I) /\ is_min rows_of As (di_tmin I) /\ is_mean rows_of As (di_tmean I) /\
      is_max cols_of As (di_smax I) /\ is_min cols_of As (di_smin I) /\ is_mean cols_of As (di_smean I) /\
      is_max (h_size K) D (di_dmax I) /\ is_max (h_size K) W (di_lmax I) /\ is_max (h_rank K) W (di_rmax I) /\
      is_mean (h_size K) D (di_dmean I) /\ is_mean (h_size K) W (di_lmean I) /\ is_mean (h_rank K) W (di_rmean I) /\
      (min_guard (h_size K) D As -> is_min (h_size K) D (di_dmin I)) /\
      (min_guard (h_size K) W As -> is_min (h_size K) W (di_lmin I)) /\
      (min_guard (h_rank K) W As -> is_min (h_rank K) W (di_rmin I)) /\
      (* storage, if the product of the sizes of each local matrix fits in an unsigned int and the symmetric blocks are square *)
      ((forall A, In A As -> (Z.of_nat (rows_of A) * Z.of_nat (cols_of A) < 4294967296)%Z) ->
       (forall h, In h D -> h_sym h <> SyN -> c_size (h_t h) = c_size (h_s h)) ->
        let full := qn (total (fun A => rows_of A * cols_of A) As) in
        let gen := (qtotal stored D + qtotal stored W)%Q in
        di_ratio I == (full / gen)%Q /\ di_saving I == (1 - gen / full)%Q).
Proof.
  intros K As Hne D W. destruct As as [|A l]; [congruence|]. clear Hne. unfold block_information.
  rewrite (all_some_map _ _ _ _ _ (fun B _ => local_infos_ok K B)).
  destruct (mpi_reduce_nth nat Nat.max 5 0 [mx K (h_size K) (dense_leaves A) (m0 K A); mx K (h_size K) (low_leaves A) (m0 K A); mx K (h_rank K) (low_leaves A) (m0 K A); rows_of A; cols_of A]
    (map (fun B => [mx K (h_size K) (dense_leaves B) (m0 K B); mx K (h_size K) (low_leaves B) (m0 K B); mx K (h_rank K) (low_leaves B) (m0 K B); rows_of B; cols_of B]) l)) as (r1 & E1 & L1 & N1).
  { intros x [<-|Hx]; [reflexivity|]. apply in_map_iff in Hx. destruct Hx as (B & <- & _). reflexivity. }
  destruct (mpi_reduce_nth nat Nat.min 5 0 [mn K (h_size K) (dense_leaves A) (m0 K A); mn K (h_size K) (low_leaves A) (m0 K A); mn K (h_rank K) (low_leaves A) (m0 K A); rows_of A; cols_of A]
    (map (fun B => [mn K (h_size K) (dense_leaves B) (m0 K B); mn K (h_size K) (low_leaves B) (m0 K B); mn K (h_rank K) (low_leaves B) (m0 K B); rows_of B; cols_of B]) l)) as (r2 & E2 & L2 & N2).
  { intros x [<-|Hx]; [reflexivity|]. apply in_map_iff in Hx. destruct Hx as (B & <- & _). reflexivity. }
  destruct (mpi_reduce_nth nat Nat.add 5 0 [total (h_size K) (dense_leaves A); total (h_size K) (low_leaves A); total (h_rank K) (low_leaves A); rows_of A; cols_of A]
    (map (fun B => [total (h_size K) (dense_leaves B); total (h_size K) (low_leaves B); total (h_rank K) (low_leaves B); rows_of B; cols_of B]) l)) as (r3 & E3 & L3 & N3).
  { intros x [<-|Hx]; [reflexivity|]. apply in_map_iff in Hx. destruct Hx as (B & <- & _). reflexivity. }
  destruct (mpi_reduce_nth nat Nat.add 4 0 [length (dense_leaves A); length (low_leaves A); m0 K A; generated_local K (dense_leaves A) (low_leaves A)]
    (map (fun B => [length (dense_leaves B); length (low_leaves B); m0 K B; generated_local K (dense_leaves B) (low_leaves B)]) l)) as (r4 & E4 & L4 & N4).
  { intros x [<-|Hx]; [reflexivity|]. apply in_map_iff in Hx. destruct Hx as (B & <- & _). reflexivity. }
  rewrite !map_map. cbn [map]. rewrite E1, E2, E3, E4. eexists. split; [reflexivity|].
  cbn [di_tmax di_tmean di_tmin di_smax di_smean di_smin di_dmax di_dmean di_dmin di_lmax di_lmean di_lmin di_rmax di_rmean di_rmin di_nlow di_ndense di_ratio di_saving di_tasks]. unfold at_.
  rewrite !N1, !N2, !N3, !N4 by lia. clear r1 E1 L1 N1 r2 E2 L2 N2 r3 E3 L3 N3 r4 E4 L4 N4. rewrite !map_map. cbn [nth].
  assert (S : forall f : rtree (hinfo K) -> nat, fold_left Nat.add (map f l) (f A) = total f (A :: l)) by (intros f; rewrite fold_add, total_map; reflexivity).
  rewrite (S (fun B => length (dense_leaves B))), (S (fun B => length (low_leaves B))), (S (fun B => total (h_size K) (dense_leaves B))), (S (fun B => total (h_size K) (low_leaves B))),
    (S (fun B => total (h_rank K) (low_leaves B))), (S (fun B => m0 K B)), (S (fun B => generated_local K (dense_leaves B) (low_leaves B))), (S (fun B => rows_of B)), (S (fun B => cols_of B)).
  split; [reflexivity|]. split; [unfold D, all_dense; rewrite len_concat; reflexivity|]. split; [unfold W, all_low; rewrite len_concat; reflexivity|].
  assert (Mx : forall f : rtree (hinfo K) -> nat, is_max f (A :: l) (fold_left Nat.max (map f l) (f A))).
  { intros f. destruct (fold_max_in (map f l) (f A)) as [I1 I2]. change (f A :: map f l) with (map f (A :: l)) in *. split; [intros B HB; apply I1; apply in_map; exact HB|]. split; [discriminate|]. intros _. apply in_map_iff in I2. destruct I2 as (B & E & HB). exists B. auto. }
  assert (Mn : forall f : rtree (hinfo K) -> nat, is_min f (A :: l) (fold_left Nat.min (map f l) (f A))).
  { intros f. destruct (fold_min_in (map f l) (f A)) as [I1 I2]. change (f A :: map f l) with (map f (A :: l)) in *. split; [intros B HB; apply I1; apply in_map; exact HB|]. split; [discriminate|]. intros _. apply in_map_iff in I2. destruct I2 as (B & E & HB). exists B. auto. }
  assert (Me : forall f : rtree (hinfo K) -> nat, is_mean f (A :: l) (qn (total f (A :: l)) / qn (length (A :: l)))%Q).
  { intros f. unfold is_mean. cbn [length Nat.eqb]. rewrite Qmult_comm. apply Qmult_div_r. apply qn_pos. lia. }
  split; [apply Mx|]. split; [apply Mn|]. split; [apply Me|]. split; [apply Mx|]. split; [apply Mn|]. split; [apply Me|].
  split; [apply max_all|]. split; [apply max_all|]. split; [apply max_all|].
  split; [apply mean_all|]. split; [apply mean_all|]. split; [apply mean_all|].
  split; [intros G; unfold D, all_dense; rewrite <- len_concat; apply min_all; exact G|]. split; [intros G; unfold W, all_low; rewrite <- len_concat; apply min_all; exact G|]. split; [intros G; unfold W, all_low; rewrite <- len_concat; apply min_all; exact G|].
  intros Hs Hq. set (gen := (qtotal stored D + qtotal stored W)%Q).
  assert (EF : total (m0 K) (A :: l) = total (fun A => rows_of A * cols_of A) (A :: l)).
  { clear - Hs. induction (A :: l) as [|B s IH]; [reflexivity|]. unfold total in *. cbn [fold_right]. rewrite IH by (intros x Hx; apply Hs; right; exact Hx). f_equal. specialize (Hs B (or_introl eq_refl)). unfold m0, umul. rewrite Z.mod_small by lia. rewrite <- Nat2Z.inj_mul, Nat2Z.id. lia. }
  assert (EG : (qn (total (fun B => generated_local K (dense_leaves B) (low_leaves B)) (A :: l)) == gen)%Q).
  { unfold gen, D, W, all_dense, all_low in *. clear - Hq. induction (A :: l) as [|B s IH]; [reflexivity|]. cbn [map concat] in *.
    assert (Qa : forall X (f : X -> Q) u v, (qtotal f (u ++ v) == qtotal f u + qtotal f v)%Q) by (clear; intros X f u v; induction u as [|x u IH]; unfold qtotal in *; cbn [app fold_right]; [ring|rewrite IH; ring]).
    rewrite !Qa. unfold total in *. cbn [fold_right]. rewrite qn_add, IH by (intros h Hh; apply Hq; apply in_or_app; right; exact Hh).
    rewrite gen_local; [ring| | |intros h Hh; apply Hq; apply in_or_app; left; exact Hh]; intros h Hh; unfold dense_leaves, low_leaves in Hh; apply in_map_iff in Hh; destruct Hh as (t & <- & Ht); apply filter_In in Ht; destruct Ht as [_ Ht]; apply andb_true_iff in Ht; apply Ht. }
  change (total (fun B => m0 K B) (A :: l)) with (total (m0 K) (A :: l)). rewrite EF, EG. split; reflexivity.
Qed.
Print Assumptions C72_statistics.

(** The condition of the minima holds for the sizes of the dense blocks if each process has one, the blocks lie in the matrix of
    their process and the products of the sizes fit; likewise for the low-rank blocks. *)
Theorem C72_minimum_applies :
  forall K (As : list (rtree (hinfo K))) (g : rtree (hinfo K) -> list (hinfo K)),
    (forall A, In A As -> (Z.of_nat (rows_of A) * Z.of_nat (cols_of A) < 4294967296)%Z) ->
    (forall A, In A As -> g A <> []) ->
    (forall A h, In A As -> In h (g A) -> c_size (h_t h) <= rows_of A /\ c_size (h_s h) <= cols_of A) ->
    min_guard (h_size K) (concat (map g As)) As.
Proof.
  intros K As g Hs Hn Hb. right. intros A HA. destruct (g A) as [|h l] eqn:E; [destruct (Hn A HA E)|]. exists h. split.
  - apply in_concat. exists (g A). split; [apply in_map; exact HA|rewrite E; left; reflexivity].
  - destruct (Hb A h HA) as [H1 H2]; [rewrite E; left; reflexivity|]. unfold umul. specialize (Hs A HA). rewrite Z.mod_small by lia. rewrite <- Nat2Z.inj_mul, Nat2Z.id. unfold h_size. nia.
Qed.
Print Assumptions C72_minimum_applies.

(** Two processes: the second one has a 1 x 2 matrix that is one low-rank block.  The reported minimum of the sizes of the dense blocks is 2;
    the only dense block has 6 coefficients. *)
Definition ex_dist : list (rtree (hinfo Zc)) :=
  let t0 := CNode (mkCinfo 0 0 3 1 0 [0; 1; 2; 3]) [] in let t1 := CNode (mkCinfo 1 3 1 1 1 [0; 1; 2; 3]) [] in
  let s := CNode (mkCinfo 0 0 2 0 0 [0; 1]) [] in
  [RNode (@mkHinfo Zc t0 s SyN UpN (DDense (@mkMat Zc 3 2 (repeat 1%Z 6))) SyN UpN) [];
   RNode (@mkHinfo Zc t1 s SyN UpN (DLow (@mkLrm Zc (@mkMat Zc 1 1 [1%Z]) (@mkMat Zc 1 2 [1; 1]%Z))) SyN UpN) []].
Theorem C72_minimum_refuted :
  exists I, block_information Zc ex_dist = Some I /\ di_dmin I = 2 /\ ~ is_min (h_size Zc) (all_dense ex_dist) (di_dmin I).
Proof.
  eexists. split; [vm_compute; reflexivity|]. split; [reflexivity|]. intros (_ & _ & H). destruct H as (h & Hh & E); [discriminate|]. vm_compute in Hh. destruct Hh as [<-|[]]. vm_compute in E. discriminate.
Qed.

(** ** The integers of m_information and the timings *)

(** The value of a key. *)
Definition lookup {A} (name : str) (m : list (str * A)) : option A :=
  option_map snd (find (fun e => if list_eq_dec ascii_dec (fst e) name then true else false) m).
Definition zsum {A} (f : A -> Z) (l : list A) : Z := fold_right (fun a s => (f a + s)%Z) 0%Z l.

Lemma lookup_nth : forall A (m : list (str * A)) i n a, NoDup (map fst m) -> nth_error m i = Some (n, a) -> lookup n m = Some a.
Proof.
  intros A. induction m as [|[k b] m IH]; intros i n a ND H; [destruct i; discriminate|]. unfold lookup. cbn [find fst]. cbn [map] in ND. inversion ND as [|x y N1 N2]; subst.
  destruct i as [|i]; cbn [nth_error] in H.
  - injection H as -> ->. destruct (list_eq_dec ascii_dec n n); [reflexivity|congruence].
  - destruct (list_eq_dec ascii_dec k n) as [->|_]; [|exact (IH i n a N2 H)]. exfalso. apply N1. apply nth_error_In in H. change n with (fst (n, a)). apply in_map. exact H.
Qed.
Lemma digits_stoi : forall s, is_positive_integer s = true -> exists n, stoi s = Some (Z.of_nat n).
Proof.
  intros [|c s] H; [discriminate|]. cbn [is_positive_integer] in H. assert (Hc := proj1 (forallb_forall _ _) H c (or_introl eq_refl)). cbv beta in Hc.
  destruct (digit_of c) as [d|] eqn:E; [|congruence]. exists (parse_digits (c :: s) 0). unfold stoi.
  destruct (Ascii.eqb c "-"%char) eqn:M; [apply Ascii.eqb_eq in M; subst c; vm_compute in E; discriminate|]. unfold parse_nat. rewrite E. reflexivity.
Qed.
Lemma nodup_filter : forall (f : str * str -> bool) m, NoDup (map fst m) -> NoDup (map fst (filter f m)).
Proof.
  intros f. induction m as [|e m IH]; intros H; [constructor|]. cbn [map filter] in *. inversion H as [|x y N1 N2]; subst. destruct (f e); [|apply IH, N2]. cbn [map]. constructor; [|apply IH, N2].
  intros Q. apply N1. apply in_map_iff in Q. destruct Q as (e' & <- & Q). apply filter_In in Q. apply in_map. apply Q.
Qed.
Lemma nth_error_combine : forall A B (a : list A) (b : list B) i x, nth_error (combine a b) i = Some x -> nth_error a i = Some (fst x) /\ nth_error b i = Some (snd x).
Proof.
  intros A B. induction a as [|u a IH]; intros [|v b] [|i] x H; cbn in H; try discriminate; [injection H as <-; split; reflexivity|]. cbn [nth_error]. apply (IH b i x H).
Qed.

(** Each integer that is reported is the sum of those of the processes, if these have the same integer entries. *)
Theorem C72_information :
  forall K (ps : list (process K)) names, ps <> [] ->
    (forall p, In p ps -> NoDup (map fst (ps_info K p)) /\ map fst (filter (fun e => is_positive_integer (snd e)) (ps_info K p)) = names) ->
    exists r, information_values K ps = Some r /\ map fst r = names /\
      forall name z, In (name, z) r -> exists v : process K -> nat,
        (forall p, In p ps -> exists s, lookup name (ps_info K p) = Some s /\ stoi s = Some (Z.of_nat (v p))) /\ z = zsum (fun p => Z.of_nat (v p)) ps.
Proof.
  intros K ps names Hne H. destruct ps as [|p0 l]; [congruence|]. clear Hne.
  set (vals := fun p : process K => map (fun e => match stoi (snd e) with Some z => z | None => 0%Z end) (int_entries (ps_info K p))).
  assert (HS : forall e p, In e (int_entries (ps_info K p)) -> exists n, stoi (snd e) = Some (Z.of_nat n)) by (intros e p He; apply filter_In in He; apply digits_stoi, He).
  assert (EV : all_some (map (fun p => all_some (map (fun e => stoi (snd e)) (int_entries (ps_info K p)))) (p0 :: l)) = Some (map vals (p0 :: l))).
  { apply (all_some_map _ _ _ vals). intros p _. unfold vals. apply (all_some_map _ _ _ (fun e => match stoi (snd e) with Some z => z | None => 0%Z end)). intros e He. destruct (HS e p He) as (n & ->). reflexivity. }
  assert (LV : forall p, In p (p0 :: l) -> length (vals p) = length names).
  { intros p Hp. destruct (H p Hp) as [_ <-]. unfold vals. rewrite !map_length. reflexivity. }
  unfold information_values. rewrite EV. cbn [map].
  destruct (mpi_reduce_nth Z Z.add (length names) 0%Z (vals p0) (map vals l)) as (r & E & Lr & Nr).
  { intros x Hx. change (vals p0 :: map vals l) with (map vals (p0 :: l)) in Hx. apply in_map_iff in Hx. destruct Hx as (p & <- & Hp). apply LV, Hp. }
  rewrite E. eexists. split; [reflexivity|]. destruct (H p0 (or_introl eq_refl)) as [_ H0]. unfold int_entries at 1. rewrite H0. split.
  { clear - Lr. revert r Lr. induction names as [|n names IH]; intros [|z r] Lr; cbn in *; try lia; [reflexivity|]. f_equal. apply IH. lia. }
  intros name z Hz. apply In_nth_error in Hz. destruct Hz as (i & Hi). unfold int_entries in Hi. rewrite H0 in Hi. apply nth_error_combine in Hi. cbn [fst snd] in Hi. destruct Hi as [Hi1 Hi2].
  assert (Li : i < length names) by (apply nth_error_Some; congruence).
  assert (Ez : z = nth i r 0%Z) by (symmetry; apply nth_error_nth; exact Hi2). rewrite (Nr i Li) in Ez. rewrite map_map in Ez.
  exists (fun p => Z.to_nat (nth i (vals p) 0%Z)).
  assert (X : forall p, In p (p0 :: l) -> exists s n, lookup name (ps_info K p) = Some s /\ stoi s = Some (Z.of_nat n) /\ nth i (vals p) 0%Z = Z.of_nat n).
  { intros p Hp. destruct (H p Hp) as [ND EN]. assert (Hn : exists e, nth_error (int_entries (ps_info K p)) i = Some e).
    { destruct (nth_error (int_entries (ps_info K p)) i) as [e|] eqn:Q; [exists e; reflexivity|]. apply nth_error_None in Q. pose proof (LV p Hp) as Q'. unfold vals in Q'. rewrite map_length in Q'. lia. }
    destruct Hn as ([k s] & He). assert (k = name).
    { assert (Q : nth_error (map fst (int_entries (ps_info K p))) i = Some k) by (rewrite nth_error_map, He; reflexivity). unfold int_entries in Q. rewrite EN, Hi1 in Q. congruence. }
    subst k. destruct (HS (name, s) p (nth_error_In _ _ He)) as (n & Es). cbn [snd] in Es. exists s, n. split; [|split; [exact Es|]].
    - assert (In (name, s) (ps_info K p)) as Q by (apply nth_error_In in He; apply filter_In in He; apply He). apply In_nth_error in Q. destruct Q as (i' & Q). exact (lookup_nth _ _ _ _ _ ND Q).
    - unfold vals. apply nth_error_nth. rewrite nth_error_map, He. cbn [option_map snd]. rewrite Es. reflexivity. }
  split.
  - intros p Hp. destruct (X p Hp) as (s & n & E1 & E2 & E3). exists s. split; [exact E1|]. rewrite E3, Nat2Z.id. exact E2.
  - assert (G : forall l a, fold_left Z.add (map (fun p => nth i (vals p) 0%Z) l) a = (a + zsum (fun p => nth i (vals p) 0%Z) l)%Z) by (clear; induction l as [|p l IH]; intros a; cbn [map fold_left zsum fold_right]; [lia|]; rewrite IH; unfold zsum; cbn [fold_right]; lia).
    rewrite G in Ez. rewrite Ez. change (nth i (vals p0) 0 + zsum (fun p => nth i (vals p) 0) l)%Z with (zsum (fun p => nth i (vals p) 0%Z) (p0 :: l)). clear - X.
    induction (p0 :: l) as [|p s IH]; [reflexivity|]. unfold zsum in *. cbn [fold_right]. rewrite IH by (intros q Hq; apply X; right; exact Hq). f_equal. destruct (X p (or_introl eq_refl)) as (s' & n & _ & _ & E3). rewrite E3. lia.
Qed.
Print Assumptions C72_information.

Lemma qmax_in : forall l a, let r := fold_left qmax l a in (forall x, In x (a :: l) -> (x <= r)%Q) /\ In r (a :: l).
Proof.
  assert (M : forall a b, (a <= qmax a b)%Q /\ (b <= qmax a b)%Q /\ (qmax a b = a \/ qmax a b = b)).
  { intros a b. unfold qmax. destruct (Qle_bool a b) eqn:E; [apply Qle_bool_iff in E; split; [exact E|split; [apply Qle_refl|right; reflexivity]]|].
    split; [apply Qle_refl|]. split; [|left; reflexivity]. destruct (Qlt_le_dec b a) as [L|L]; [apply Qlt_le_weak; exact L|]. apply Qle_bool_iff in L. congruence. }
  induction l as [|b l IH]; intros a r; cbn [fold_left] in r; [subst r; split; [intros x [<-|[]]; apply Qle_refl|left; reflexivity]|].
  destruct (IH (qmax a b)) as [I1 I2]. fold r in I1, I2. destruct (M a b) as (M1 & M2 & M3). split.
  - intros x [<-|[<-|Hx]]; [apply Qle_trans with (qmax a b); [exact M1|apply I1; left; reflexivity]|apply Qle_trans with (qmax a b); [exact M2|apply I1; left; reflexivity]|apply I1; right; exact Hx].
  - destruct I2 as [I2|I2]; [|right; right; exact I2]. destruct M3 as [E|E]; rewrite E in I2; [left; exact I2|right; left; exact I2].
Qed.
Lemma qmin_in : forall l a, let r := fold_left qmin l a in (forall x, In x (a :: l) -> (r <= x)%Q) /\ In r (a :: l).
Proof.
  assert (M : forall a b, (qmin a b <= a)%Q /\ (qmin a b <= b)%Q /\ (qmin a b = a \/ qmin a b = b)).
  { intros a b. unfold qmin. destruct (Qle_bool a b) eqn:E; [apply Qle_bool_iff in E; split; [apply Qle_refl|split; [exact E|left; reflexivity]]|].
    split; [|split; [apply Qle_refl|right; reflexivity]]. destruct (Qlt_le_dec b a) as [L|L]; [apply Qlt_le_weak; exact L|]. apply Qle_bool_iff in L. congruence. }
  induction l as [|b l IH]; intros a r; cbn [fold_left] in r; [subst r; split; [intros x [<-|[]]; apply Qle_refl|left; reflexivity]|].
  destruct (IH (qmin a b)) as [I1 I2]. fold r in I1, I2. destruct (M a b) as (M1 & M2 & M3). split.
  - intros x [<-|[<-|Hx]]; [apply Qle_trans with (qmin a b); [apply I1; left; reflexivity|exact M1]|apply Qle_trans with (qmin a b); [apply I1; left; reflexivity|exact M2]|apply I1; right; exact Hx].
  - destruct I2 as [I2|I2]; [|right; right; exact I2]. destruct M3 as [E|E]; rewrite E in I2; [left; exact I2|right; left; exact I2].
Qed.

(** The maximum, the mean and the minimum of the timings, if the processes have measured the same things. *)
Theorem C72_timings :
  forall K (ps : list (process K)) names, ps <> [] ->
    (forall p, In p ps -> NoDup (map fst (ps_times K p)) /\ map fst (ps_times K p) = names) ->
    exists r, timing_values K ps = Some r /\ map fst r = names /\
      forall name a m b, In (name, (a, m, b)) r -> exists v : process K -> Q,
        (forall p, In p ps -> lookup name (ps_times K p) = Some (v p)) /\
        (forall p, In p ps -> (v p <= a)%Q) /\ (exists p, In p ps /\ v p = a) /\
        (forall p, In p ps -> (b <= v p)%Q) /\ (exists p, In p ps /\ v p = b) /\
        (m * qn (length ps) == qtotal v ps)%Q.
Proof.
  intros K ps names Hne H. destruct ps as [|p0 l]; [congruence|]. clear Hne.
  set (vals := fun p : process K => map snd (ps_times K p)).
  assert (LV : forall x, In x (vals p0 :: map vals l) -> length x = length names).
  { intros x Hx. change (vals p0 :: map vals l) with (map vals (p0 :: l)) in Hx. apply in_map_iff in Hx. destruct Hx as (p & <- & Hp). destruct (H p Hp) as [_ <-]. unfold vals. rewrite !map_length. reflexivity. }
  destruct (mpi_reduce_nth Q qmax (length names) 0%Q (vals p0) (map vals l) LV) as (r1 & E1 & L1 & N1).
  destruct (mpi_reduce_nth Q qmin (length names) 0%Q (vals p0) (map vals l) LV) as (r2 & E2 & L2 & N2).
  destruct (mpi_reduce_nth Q Qplus (length names) 0%Q (vals p0) (map vals l) LV) as (r3 & E3 & L3 & N3).
  unfold timing_values. change (map (fun p => map snd (ps_times K p)) (p0 :: l)) with (vals p0 :: map vals l). rewrite E1, E2, E3. eexists. split; [reflexivity|].
  destruct (H p0 (or_introl eq_refl)) as [_ H0]. rewrite H0. split.
  { assert (G : forall (A B : Type) (x : list A) (y : list B), length x = length y -> map fst (combine x y) = x) by (clear; intros A B; induction x as [|a x IH]; intros [|b y] L; cbn in *; try lia; [reflexivity|f_equal; apply IH; lia]).
    apply G. rewrite !combine_length, map_length, L1, L2, L3. lia. }
  intros name a m b Hz. apply In_nth_error in Hz. destruct Hz as (i & Hi). apply nth_error_combine in Hi. destruct Hi as [Hi1 Hi]. apply nth_error_combine in Hi. destruct Hi as [Hi Hi4]. apply nth_error_combine in Hi. destruct Hi as [Hi2 Hi3]. cbn [fst snd] in *.
  assert (Li : i < length names) by (apply nth_error_Some; congruence).
  assert (Ea : a = nth i r1 0%Q) by (symmetry; apply nth_error_nth; exact Hi2). assert (Eb : b = nth i r2 0%Q) by (symmetry; apply nth_error_nth; exact Hi4).
  rewrite nth_error_map in Hi3. destruct (nth_error r3 i) as [s|] eqn:Q3; [|discriminate]. cbn [option_map] in Hi3. assert (Es : s = nth i r3 0%Q) by (symmetry; apply nth_error_nth; exact Q3).
  rewrite (N1 i Li), map_map in Ea. rewrite (N2 i Li), map_map in Eb. rewrite (N3 i Li), map_map in Es.
  exists (fun p => nth i (vals p) 0%Q). set (v := fun p => nth i (vals p) 0%Q) in *.
  destruct (qmax_in (map v l) (v p0)) as [A1 A2]. destruct (qmin_in (map v l) (v p0)) as [B1 B2]. cbv zeta in *.
  change (v p0 :: map v l) with (map v (p0 :: l)) in *. change (nth i (vals p0) 0%Q) with (v p0) in *. rewrite <- Ea in A1, A2. rewrite <- Eb in B1, B2. split.
  { intros p Hp. destruct (H p Hp) as [ND EN]. destruct (nth_error (ps_times K p) i) as [[k t]|] eqn:Qe.
    - assert (k = name). { assert (Q : nth_error (map fst (ps_times K p)) i = Some k) by (rewrite nth_error_map, Qe; reflexivity). rewrite EN, Hi1 in Q. congruence. } subst k.
      rewrite (lookup_nth _ _ _ _ _ ND Qe). f_equal. unfold v, vals. symmetry. apply nth_error_nth. rewrite nth_error_map, Qe. reflexivity.
    - apply nth_error_None in Qe. rewrite <- EN, map_length in Li. lia. }
  split; [intros p Hp; apply A1; apply (in_map v); exact Hp|]. split; [apply in_map_iff in A2; destruct A2 as (p & Ep & Hp); exists p; auto|].
  split; [intros p Hp; apply B1; apply (in_map v); exact Hp|]. split; [apply in_map_iff in B2; destruct B2 as (p & Ep & Hp); exists p; auto|].
  injection Hi3 as <-. rewrite Qmult_comm, Qmult_div_r by (apply qn_pos; cbn [length]; lia). rewrite Es. clear.
  assert (G : forall l a, (fold_left Qplus (map v l) a == a + qtotal v l)%Q) by (clear; induction l as [|p l IH]; intros a; cbn [map fold_left]; [unfold qtotal; cbn [fold_right]; ring|]; rewrite IH; unfold qtotal; cbn [fold_right]; ring).
  change (fold_left Qplus (map (fun x => nth i (vals x) 0%Q) l)) with (fold_left Qplus (map v l)). rewrite G. reflexivity.
Qed.
Print Assumptions C72_timings.

(** Two processes that hold the matrix of P_Info.v and one dense block, with false positives and a timing. *)
Definition nm (n : nat) : str := print_nat n.
Definition ex_processes : list (process Zc) :=
  [mkProcess Zc ex_info [(nm 1, nm 12); (nm 2, [])] [(nm 3, 1 # 2)%Q]; mkProcess Zc ex_leaf3 [(nm 1, nm 30); (nm 2, [])] [(nm 3, 3 # 2)%Q]].
Example ex_values :
  exists I, block_information Zc (map (ps_mat Zc) ex_processes) = Some I /\ di_tmax I = 5 /\ di_tmin I = 3 /\ (di_tmean I == 4)%Q /\ di_dmax I = 9 /\ di_dmin I = 4 /\ di_ndense I = 3 /\ di_nlow I = 2 /\ di_rmax I = 2 /\
    (di_ratio I == 34 # 37)%Q /\ information_values Zc ex_processes = Some [(nm 1, 42%Z)].
Proof. eexists. split; [vm_compute; reflexivity|]. cbn [di_tmax di_tmin di_tmean di_dmax di_dmin di_ndense di_nlow di_rmax di_ratio]. repeat (split; [vm_compute; reflexivity|]). vm_compute. reflexivity. Qed.
Example ex_hypotheses :
  (forall p, In p ex_processes -> NoDup (map fst (ps_info Zc p)) /\ map fst (filter (fun e => is_positive_integer (snd e)) (ps_info Zc p)) = [nm 1]) /\
  (forall p, In p ex_processes -> NoDup (map fst (ps_times Zc p)) /\ map fst (ps_times Zc p) = [nm 3]) /\
  min_guard (h_size Zc) (all_dense (map (ps_mat Zc) ex_processes)) (map (ps_mat Zc) ex_processes).
Proof.
  assert (N2 : forall a b : str, a <> b -> NoDup [a; b]) by (intros a b Hab; constructor; [intros [Q|[]]; congruence|constructor; [intros []|constructor]]).
  assert (N1 : forall a : str, NoDup [a]) by (intros a; constructor; [intros []|constructor]).
  split; [|split].
  - intros p [<-|[<-|[]]]; (split; [apply N2; discriminate|vm_compute; reflexivity]).
  - intros p [<-|[<-|[]]]; (split; [apply N1|vm_compute; reflexivity]).
  - right. intros A HA. exists (rt_val (nth 0 (rt_children ex_info) ex_info)). split; [left; reflexivity|]. destruct HA as [<-|[<-|[]]]; vm_compute; lia.
Qed.
(** Process 1 has another entry: the sum mixes them under the name of process 0. *)
Theorem C72_names_refuted :
  information_values Zc [mkProcess Zc ex_leaf3 [(nm 1, nm 12)] []; mkProcess Zc ex_leaf3 [(nm 2, nm 30)] []] = Some [(nm 1, 42%Z)].
Proof. vm_compute. reflexivity. Qed.
