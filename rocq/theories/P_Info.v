(** * Property C43: block statistics.  Vocabulary: InfoModel.v. *)

From Coq Require Import List Arith Bool ZArith QArith Lia Permutation.
From Verif Require Import ClusterModel IOModel IOSpec IOProofs P_IO BlockModel BlockSpec Algebra BlasModel HMatModel HMatSpec DistModel InfoModel.
Import ListNotations.
Local Open Scope nat_scope.

(** Specification: [m] is the maximum of f on l (0 if l is empty); the minimum likewise. *)
Definition is_max {A : Type} (f : A -> nat) (l : list A) (m : nat) : Prop :=
  (forall a, In a l -> f a <= m) /\ (l = [] -> m = 0) /\ (l <> [] -> exists a, In a l /\ f a = m).
Definition is_min {A : Type} (f : A -> nat) (l : list A) (m : nat) : Prop :=
  (forall a, In a l -> m <= f a) /\ (l = [] -> m = 0) /\ (l <> [] -> exists a, In a l /\ f a = m).
Definition total {A : Type} (f : A -> nat) (l : list A) : nat := fold_right (fun a s => f a + s) 0 l.
Definition qtotal {A : Type} (f : A -> Q) (l : list A) : Q := fold_right (fun a s => (f a + s)%Q) 0%Q l.
(** The average (0 if there is nothing) *)
Definition is_mean {A : Type} (f : A -> nat) (l : list A) (q : Q) : Prop :=
  if length l =? 0 then q == 0%Q else (q * qn (length l) == qn (total f l))%Q.
(** Coefficients stored for a block. *)
Definition stored {K} (h : hinfo K) : Q :=
  match h_data h with
  | DLow L => (qn (lrank L) * (qn (c_size (h_t h)) + qn (c_size (h_s h))))%Q
  | _ => match h_sym h with
         | SyN => (qn (c_size (h_t h)) * qn (c_size (h_s h)))%Q
         | _ => (qn (c_size (h_t h)) * (qn (c_size (h_s h)) + 1) / 2)%Q
         end
  end.
(** The leaves that are dense, and those that are low-rank, in preorder. *)
Definition dense_leaves {K} (A : rtree (hinfo K)) : list (hinfo K) := map rt_val (filter (fun h => is_leaf K h && h_dense K (rt_val h)) (preorder A)).
Definition low_leaves {K} (A : rtree (hinfo K)) : list (hinfo K) := map rt_val (filter (fun h => is_leaf K h && h_low K (rt_val h)) (preorder A)).

Section P.
  Variable K : Coef.

  Lemma blocks_fold : forall (l : list (rtree (hinfo K))) st,
    fold_left (fun (st : list (hinfo K) * list (hinfo K)) h =>
            if is_leaf K h && h_dense K (rt_val h) then (fst st ++ [rt_val h], snd st)
            else if is_leaf K h && h_low K (rt_val h) then (fst st, snd st ++ [rt_val h]) else st) l st =
    (fst st ++ map rt_val (filter (fun h => is_leaf K h && h_dense K (rt_val h)) l), snd st ++ map rt_val (filter (fun h => is_leaf K h && h_low K (rt_val h)) l)).
  Proof.
    induction l as [|h l IH]; intros [d w]; cbn [fold_left filter map]; [rewrite !app_nil_r; reflexivity|]. rewrite IH.
    assert (X : h_dense K (rt_val h) = true -> h_low K (rt_val h) = false) by (unfold h_dense, h_low; destruct (h_data (rt_val h)); congruence).
    destruct (is_leaf K h); cbn [andb fst snd]; [|reflexivity]. destruct (h_dense K (rt_val h)); [rewrite X by reflexivity|]; cbn [fst snd map].
    - rewrite <- app_assoc. reflexivity.
    - destruct (h_low K (rt_val h)); cbn [fst snd map]; [|reflexivity]. rewrite <- app_assoc. reflexivity.
  Qed.
  Lemma blocks_ok : forall A, get_blocks K A = Some (dense_leaves A, low_leaves A).
  Proof. intros A. unfold get_blocks. rewrite (C13_preorder _ A) by lia. rewrite blocks_fold. reflexivity. Qed.

  Lemma stat_ok : forall m0 f (l : list (hinfo K)), exists a i, stat K m0 f l = (a, i, total f l) /\ is_max f l a /\
    i <= m0 /\ (forall h, In h l -> i <= f h) /\ (i = m0 \/ exists h, In h l /\ f h = i).
  Proof.
    intros m0 f l. unfold stat.
    assert (G : forall l a i s, fold_left (fun (st : nat * nat * nat) h => let '(a, i, s) := st in (Nat.max a (f h), Nat.min i (f h), s + f h)) l (a, i, s) =
      (fold_left (fun a h => Nat.max a (f h)) l a, fold_left (fun i h => Nat.min i (f h)) l i, s + total f l)).
    { clear. induction l as [|h l0 IH]; intros a i s; cbn [fold_left]; [f_equal; unfold total; cbn; lia|]. rewrite IH. f_equal. unfold total. cbn [fold_right]. lia. }
    rewrite G. eexists _, _. split; [reflexivity|].
    assert (M : forall l a, a <= fold_left (fun a h => Nat.max a (f h)) l a /\ (forall h, In h l -> f h <= fold_left (fun a h => Nat.max a (f h)) l a) /\
      (fold_left (fun a h => Nat.max a (f h)) l a = a \/ exists h, In h l /\ f h = fold_left (fun a h => Nat.max a (f h)) l a)).
    { clear. induction l as [|h l0 IH]; intros a; cbn [fold_left]; [split; [lia|split; [intros h []|left; reflexivity]]|]. destruct (IH (Nat.max a (f h))) as (I1 & I2 & I3). split; [lia|]. split.
      - intros h' [<-|Hh]; [lia|apply I2; exact Hh].
      - destruct I3 as [I3|(h' & Hh & I3)]; [|right; exists h'; split; [right; exact Hh|exact I3]]. rewrite I3. destruct (Nat.max_dec a (f h)) as [Q|Q]; rewrite Q; [left; reflexivity|right; exists h; split; [left; reflexivity|reflexivity]]. }
    assert (N : forall l a, fold_left (fun a h => Nat.min a (f h)) l a <= a /\ (forall h, In h l -> fold_left (fun a h => Nat.min a (f h)) l a <= f h) /\
      (fold_left (fun a h => Nat.min a (f h)) l a = a \/ exists h, In h l /\ f h = fold_left (fun a h => Nat.min a (f h)) l a)).
    { clear. induction l as [|h l0 IH]; intros a; cbn [fold_left]; [split; [lia|split; [intros h []|left; reflexivity]]|]. destruct (IH (Nat.min a (f h))) as (I1 & I2 & I3). split; [lia|]. split.
      - intros h' [<-|Hh]; [lia|apply I2; exact Hh].
      - destruct I3 as [I3|(h' & Hh & I3)]; [|right; exists h'; split; [right; exact Hh|exact I3]]. rewrite I3. destruct (Nat.min_dec a (f h)) as [Q|Q]; rewrite Q; [left; reflexivity|right; exists h; split; [left; reflexivity|reflexivity]]. }
    destruct (M l 0) as (M1 & M2 & M3). destruct (N l m0) as (N1 & N2 & N3). split; [|split; [exact N1|split; [exact N2|exact N3]]].
    split; [exact M2|]. split; [intros ->; reflexivity|]. intros Hne. destruct M3 as [M3|M3]; [|exact M3]. destruct l as [|h l0]; [congruence|].
    exists h. split; [left; reflexivity|]. specialize (M2 h (or_introl eq_refl)). lia.
  Qed.
  Lemma qn_pos : forall n, 0 < n -> ~ qn n == 0%Q.
  Proof. intros n H. unfold qn, inject_Z, Qeq. cbn. lia. Qed.
  Lemma mean_ok : forall f (l : list (hinfo K)), is_mean f l (mean K (total f l) l).
  Proof.
    intros f l. unfold is_mean, mean. destruct l as [|h l]; cbn [length Nat.eqb]; [reflexivity|]. rewrite Qmult_comm. apply Qmult_div_r. apply qn_pos. lia.
  Qed.
  Lemma min_ok : forall m0 f (l : list (hinfo K)) a i s, stat K m0 f l = (a, i, s) -> (l = [] \/ exists h, In h l /\ f h <= m0) ->
    is_min f l (match l with [] => 0 | _ => i end).
  Proof.
    intros m0 f l a i s E H. destruct (stat_ok m0 f l) as (a' & i' & E' & _ & L1 & L2 & L3). rewrite E in E'. injection E' as -> -> ->.
    destruct l as [|h l]; [split; [intros h []|split; [reflexivity|congruence]]|]. split; [exact L2|]. split; [discriminate|]. intros _.
    destruct L3 as [->|L3]; [|exact L3]. destruct H as [H|(h' & Hh & Hl)]; [discriminate|]. exists h'. split; [exact Hh|]. specialize (L2 h' Hh). lia.
  Qed.
  Lemma gen_ok : forall (d l : list (hinfo K)), (forall h, In h d -> h_dense K h = true) -> (forall h, In h l -> h_low K h = true) ->
    generated K d l == (qtotal stored d + qtotal stored l)%Q.
  Proof.
    intros d l Hd Hl. unfold generated, generated_low.
    assert (G : forall (g : hinfo K -> Q) l0 s, (forall h, In h l0 -> g h == stored h) -> fold_left (fun s h => (s + g h)%Q) l0 s == (s + qtotal stored l0)%Q).
    { intros g. induction l0 as [|h l0 IH]; intros s Hg; cbn [fold_left]; [unfold qtotal; cbn [fold_right]; ring|]. rewrite IH by (intros h' Hh; apply Hg; right; exact Hh).
      rewrite (Hg h (or_introl eq_refl)). unfold qtotal. cbn [fold_right]. ring. }
    rewrite G, G; [ring| |].
    - intros h Hh. unfold stored, h_rank. specialize (Hl h Hh). unfold h_low in Hl. destruct (h_data h); try discriminate. reflexivity.
    - intros h Hh. unfold stored. specialize (Hd h Hh). unfold h_dense in Hd. destruct (h_data h); try discriminate. reflexivity.
  Qed.
End P.

(** C43.  For every hierarchical matrix. *)
Theorem C43_statistics_are_true :
  forall K (A : rtree (hinfo K)), let r := rt_val A in let D := dense_leaves A in let W := low_leaves A in
    let m0 := Nat.max (c_size (h_s r)) (c_size (h_t r)) in
    exists I, hmatrix_information K A = Some I /\ in_rows I = c_size (h_t r) /\ in_cols I = c_size (h_s r) /\
      in_ndense I = length D /\ in_nlow I = length W /\
      is_max (h_size K) D (in_dmax I) /\ is_max (h_size K) W (in_lmax I) /\ is_max (h_rank K) W (in_rmax I) /\
      is_mean (h_size K) D (in_dmean I) /\ is_mean (h_size K) W (in_lmean I) /\ is_mean (h_rank K) W (in_rmean I) /\
      (* the minima, if some block is not larger than max(rows, columns) *)
      (D = [] \/ (exists h, In h D /\ h_size K h <= m0) -> is_min (h_size K) D (in_dmin I)) /\
      (W = [] \/ (exists h, In h W /\ h_size K h <= m0) -> is_min (h_size K) W (in_lmin I)) /\
      (W = [] \/ (exists h, In h W /\ h_rank K h <= m0) -> is_min (h_rank K) W (in_rmin I)) /\
      (* storage, if rows times columns fits in an unsigned int *)
      ((Z.of_nat (c_size (h_t r)) * Z.of_nat (c_size (h_s r)) < 4294967296)%Z ->
        let full := (qn (c_size (h_t r)) * qn (c_size (h_s r)))%Q in
        let gen := (qtotal stored D + qtotal stored W)%Q in
        in_ratio I == (full / gen)%Q /\ in_saving I == (1 - gen / full)%Q).
Proof.
  intros K A r D W m0. unfold hmatrix_information. rewrite blocks_ok. fold r. fold D. fold W. fold m0.
  destruct (stat K m0 (h_size K) W) as [[lmax lmin] lsum] eqn:E1. destruct (stat K m0 (h_rank K) W) as [[rmax rmin] rsum] eqn:E2. destruct (stat K m0 (h_size K) D) as [[dmax dmin] dsum] eqn:E3.
  pose proof (min_ok K _ _ _ _ _ _ E1) as M1. pose proof (min_ok K _ _ _ _ _ _ E2) as M2. pose proof (min_ok K _ _ _ _ _ _ E3) as M3.
  destruct (stat_ok K m0 (h_size K) W) as (a & i & F & X1 & _). rewrite E1 in F. injection F as <- _ ->.
  destruct (stat_ok K m0 (h_rank K) W) as (a & i' & F & X2 & _). rewrite E2 in F. injection F as <- _ ->.
  destruct (stat_ok K m0 (h_size K) D) as (a & i'' & F & X3 & _). rewrite E3 in F. injection F as <- _ ->.
  eexists. split; [reflexivity|]. cbn [in_rows in_cols in_dmax in_dmean in_dmin in_lmax in_lmean in_lmin in_rmax in_rmean in_rmin in_nlow in_ndense in_ratio in_saving].
  do 4 (split; [reflexivity|]). split; [exact X3|]. split; [exact X1|]. split; [exact X2|].
  split; [apply mean_ok|]. split; [apply mean_ok|]. split; [apply mean_ok|]. split; [exact M3|]. split; [exact M1|]. split; [exact M2|].
  intros Hs. set (full := (qn (c_size (h_t r)) * qn (c_size (h_s r)))%Q). set (gen := (qtotal stored D + qtotal stored W)%Q). unfold umul. rewrite Z.mod_small by lia.
  assert (E : qn (Z.to_nat (Z.of_nat (c_size (h_t r)) * Z.of_nat (c_size (h_s r)))) == full).
  { unfold full, qn. rewrite Z2Nat.id by lia. rewrite inject_Z_mult. reflexivity. }
  assert (EG : generated K D W == gen).
  { apply gen_ok; intros h Hh; unfold D, W, dense_leaves, low_leaves in Hh; apply in_map_iff in Hh; destruct Hh as (t & <- & Ht); apply filter_In in Ht; destruct Ht as [_ Ht]; apply andb_true_iff in Ht; apply Ht. }
  rewrite E, EG. split; reflexivity.
Qed.
Print Assumptions C43_statistics_are_true.

(** One dense leaf of 3 x 3: the reported minimum is 3, not 9. *)
Definition ex_leaf3 : rtree (hinfo Zc) :=
  let t := CNode (mkCinfo 0 0 3 0 0 [0; 1; 2]) [] in
  RNode (@mkHinfo Zc t t SyN UpN (DDense (@mkMat Zc 3 3 (repeat 1%Z 9))) SyN UpN) [].
Theorem C43_minimum_refuted :
  exists I, hmatrix_information Zc ex_leaf3 = Some I /\ in_dmin I = 3 /\ ~ is_min (h_size Zc) (dense_leaves ex_leaf3) (in_dmin I).
Proof.
  eexists. split; [vm_compute; reflexivity|]. split; [reflexivity|]. intros (_ & _ & H). destruct H as (h & Hh & E); [discriminate|]. vm_compute in Hh. destruct Hh as [<-|[]]. vm_compute in E. discriminate.
Qed.

(** A 5 x 5 matrix: two dense diagonal blocks, two low-rank blocks of rank 1 and 2. *)
Definition ex_info : rtree (hinfo Zc) :=
  let a := CNode (mkCinfo 0 0 2 1 0 [0; 1]) [] in let b := CNode (mkCinfo 0 2 3 1 1 [2; 3; 4]) [] in
  let r := CNode (mkCinfo 0 0 5 0 0 [0; 1; 2; 3; 4]) [a; b] in
  let dn := fun t s => RNode (@mkHinfo Zc t s SyN UpN (DDense (@mkMat Zc (c_size t) (c_size s) (repeat 1%Z (c_size t * c_size s)))) SyN UpN) [] in
  let lo := fun t s k => RNode (@mkHinfo Zc t s SyN UpN (DLow (@mkLrm Zc (@mkMat Zc (c_size t) k (repeat 1%Z (c_size t * k))) (@mkMat Zc k (c_size s) (repeat 1%Z (k * c_size s))))) SyN UpN) [] in
  RNode (@mkHinfo Zc r r SyN UpN DNone SyN UpN) [dn a a; lo a b 1; lo b a 2; dn b b].
Example ex_info_values :
  exists I, hmatrix_information Zc ex_info = Some I /\ in_dmax I = 9 /\ in_dmin I = 4 /\ in_lmax I = 6 /\ in_rmax I = 2 /\ in_rmin I = 1 /\ in_ndense I = 2 /\ in_nlow I = 2 /\
    (in_dmean I == 13 # 2)%Q /\ (in_ratio I == 25 # 28)%Q /\ exists h, In h (dense_leaves ex_info) /\ h_size Zc h <= 5.
Proof.
  eexists. split; [vm_compute; reflexivity|]. cbn [in_dmax in_dmin in_lmax in_rmax in_rmin in_ndense in_nlow in_dmean in_ratio].
  do 7 (split; [reflexivity|]). do 2 (split; [vm_compute; reflexivity|]). eexists. split; [left; reflexivity|]. vm_compute. lia.
Qed.
