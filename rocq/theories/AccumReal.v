(** * The truncation errors of a product of hierarchical matrices: norms and numbers. *)

From Coq Require Import List Arith ZArith Bool Lia Ring Reals Lra Permutation.
From Verif Require Import ClusterModel ClusterSpec ClusterProofs IOModel IOSpec IOProofs BlockModel BlockSpec BlockProofs BlockSym Algebra BlasModel BlasProofs
  HMatModel HMatSpec HMatProofs HMatBuild DistModel ArithModel ArithSpec ArithDense ArithLr ArithTree ArithHier ArithProd ArithDest P_Arith
  RealNum CompReal CompSpec AccSpec AccProofs GeomProofs P_Recomp TruncSpec TruncProofs AccumSpec AccumProofs.
Import ListNotations.
Local Open Scope R_scope.

(** ** The norm of real functions *)
Lemma rnorm_pos : forall T S N, 0 <= rnorm T S N.
Proof. intros. apply sqrt_pos. Qed.
Lemma absR_modulus : modulus Rc Rabs.
Proof. constructor; cbn; intros; [apply Rabs_R0|apply Rabs_pos|apply Rabs_mult|apply Rabs_triang|reflexivity]. Qed.
Lemma rnorm_fnorm : forall T S (N : nat -> nat -> R), rnorm T S N = fnorm (K := Rc) Rabs (c_size T) (c_size S) (block_at (K := Rc) N T S).
Proof.
  intros. unfold rnorm, fnorm, block_at. f_equal. apply rsum_ext. intros a Ha. apply rsum_ext. intros b Hb. rewrite <- Rabs_mult. symmetry. apply Rabs_right.
  apply Rle_ge, Rle_0_sqr.
Qed.
Lemma rnorm_add : forall T S N N' N'', (forall x y, in_iv x (interval T) = true -> in_iv y (interval S) = true -> N'' x y = N x y + N' x y) -> rnorm T S N'' <= rnorm T S N + rnorm T S N'.
Proof.
  intros T S N N' N'' H. rewrite !rnorm_fnorm. apply (fnorm_triangle Rc Rabs absR_modulus). intros a b Ha Hb. unfold block_at. apply H; apply in_ivb; lia.
Qed.
Lemma rnorm_le : forall T S N N', (forall x y, in_iv x (interval T) = true -> in_iv y (interval S) = true -> 0 <= N x y <= N' x y) -> rnorm T S N <= rnorm T S N'.
Proof.
  intros T S N N' H. unfold rnorm. apply sqrt_le_1_alt. apply rsum_le. intros a Ha. apply rsum_le. intros b Hb.
  assert (Q : 0 <= N (c_off T + a)%nat (c_off S + b)%nat <= N' (c_off T + a)%nat (c_off S + b)%nat) by (apply H; apply in_ivb; lia). apply Rmult_le_compat; apply Q.
Qed.
(** A function that vanishes outside a block inside. *)
Lemma rnorm_inside : forall T S t s N, contains T t = true -> contains S s = true ->
  (forall x y, in_iv x (interval t) && in_iv y (interval s) = false -> N x y = 0) -> rnorm T S N = rnorm t s N.
Proof.
  intros T S t s N H1 H2 HN. apply contains_iff in H1, H2. unfold rnorm. f_equal.
  rewrite <- (window t (c_off T) (c_size T) (fun x => rsum (c_size s) (fun b => N x (c_off s + b)%nat * N x (c_off s + b)%nat))) by lia.
  apply rsum_ext. intros a Ha. destruct (in_iv (c_off T + a) (interval t)) eqn:E1.
  - rewrite <- (window s (c_off S) (c_size S) (fun y => N (c_off T + a)%nat y * N (c_off T + a)%nat y)) by lia. apply rsum_ext. intros b Hb.
    destruct (in_iv (c_off S + b) (interval s)) eqn:E2; [reflexivity|]. rewrite HN by (rewrite E1, E2; reflexivity). ring.
  - rewrite <- (rsum_0 (c_size S)). apply rsum_ext. intros b Hb. rewrite HN by (rewrite E1; reflexivity). ring.
Qed.

Section P.
  Variable K : Coef.
  Variable md : car K -> R.
  Hypothesis MD : modulus K md.
  Notation C := (car K).
  Add Ring KrAr : (c_ring K).
  Variable eps : R.
  Hypothesis He : 0 <= eps.
  Variable rc : lrm K -> lrm K.
  Variable sv : mat K -> lrm K.
  Hypothesis HT : truncates md eps rc.
  Hypothesis HSV : svd_truncates md eps sv.
  Notation err := (ev_error rc sv).
  Notation errs := (errors rc sv).
  Notation aerrs := (abs_errors rc sv md).
  Notation chron := (chronicle rc sv md).
  Notation event := (event K).

  Lemma keeps_rc : keeps_size rc.
  Proof. intros L r c Hr Hc W R. destruct (HT L r c Hr Hc W R) as [(W' & R' & _) _]. split; assumption. Qed.
  Lemma keeps_sv : svd_keeps_size sv.
  Proof. intros A r c Hr Hc W. destruct (HSV A r c Hr Hc W) as (W' & R' & _). split; assumption. Qed.

  Lemma event_norm : forall e T S (N : nat -> nat -> R), ev_ok e -> ev_inside T S e ->
    (forall a b, (a < c_size (ev_t e))%nat -> (b < c_size (ev_s e))%nat -> md (ev_before e a b) <= N (c_off (ev_t e) + a)%nat (c_off (ev_s e) + b)%nat) ->
    rnorm T S (fun x y => md (err e x y)) <= eps * rnorm (ev_t e) (ev_s e) N.
  Proof.
    intros e T S N (H1 & H2 & O) [I1 I2] HN. rewrite (rnorm_inside T S (ev_t e) (ev_s e)); [|exact I1|exact I2|].
    2:{ intros x y E. unfold ev_error. rewrite E. apply (md_0 _ _ MD). }
    assert (Q : fnorm md (c_size (ev_t e)) (c_size (ev_s e)) (error_of (ev_after rc sv e) (ev_before e)) <= eps * fnorm md (c_size (ev_t e)) (c_size (ev_s e)) (ev_before e)).
    { destruct (ev_matrix e) as [A|L] eqn:E; unfold ev_after, ev_before; rewrite E.
      - destruct (HSV A _ _ H1 H2 O) as (_ & _ & Q). exact Q.
      - destruct O as [W R]. destruct (HT L _ _ H1 H2 W R) as [(_ & _ & Q) _]. exact Q. }
    eapply Rle_trans; [|eapply Rle_trans; [exact Q|]].
    - right. unfold rnorm, fnorm. f_equal. apply rsum_ext. intros a Ha. apply rsum_ext. intros b Hb.
      assert (E : md (err e (c_off (ev_t e) + a)%nat (c_off (ev_s e) + b)%nat) = md (error_of (ev_after rc sv e) (ev_before e) a b)); [|rewrite E; reflexivity].
      destruct e as [t s x]. cbn [ev_t ev_s] in *. rewrite (err_at K rc sv t s x a b Ha Hb). unfold error_of. rewrite <- (md_opp K md MD). apply (f_equal md). ring.
    - apply Rmult_le_compat_l; [exact He|]. unfold rnorm, fnorm. apply sqrt_le_1_alt. apply rsum_le. intros a Ha. apply rsum_le. intros b Hb.
      specialize (HN a b Ha Hb). apply Rmult_le_compat; try exact HN; apply (md_pos _ _ MD).
  Qed.

  (** The errors grow at most geometrically. *)
  Lemma errors_norm : forall es T S (N : nat -> nat -> R), good T S es -> chron N es -> (forall x y, in_iv x (interval T) = true -> in_iv y (interval S) = true -> 0 <= N x y) ->
    rnorm T S (aerrs es) <= ((1 + eps) ^ length es - 1) * rnorm T S N.
  Proof.
    induction es as [|e es IH]; intros T S N G Ch HN.
    - cbn [length pow abs_errors]. assert (rnorm T S (fun _ _ : nat => 0) = 0) as E.
      { unfold rnorm. rewrite (rsum_ext _ _ (fun _ => 0)); [rewrite rsum_0; apply sqrt_0|]. intros a Ha. transitivity (rsum (c_size S) (fun _ => 0)); [|apply rsum_0]. apply rsum_ext. intros. apply Rmult_0_l. }
      change (abs_errors rc sv md []) with (fun _ _ : nat => 0). rewrite E. lra.
    - inversion G as [|? ? [O I] G']; subst. destruct Ch as [C1 C2].
      pose proof (event_norm e T S N O I C1) as B1.
      assert (B2 : rnorm (ev_t e) (ev_s e) N <= rnorm T S N).
      { set (W := fun x y => if in_iv x (interval (ev_t e)) && in_iv y (interval (ev_s e)) then N x y else 0). destruct I as [I1 I2].
        assert (E1 : rnorm (ev_t e) (ev_s e) N = rnorm (ev_t e) (ev_s e) W).
        { unfold rnorm. f_equal. apply rsum_ext. intros a Ha. apply rsum_ext. intros b Hb. unfold W.
          assert (in_iv (c_off (ev_t e) + a) (interval (ev_t e)) = true) as -> by (apply in_ivb; lia). assert (in_iv (c_off (ev_s e) + b) (interval (ev_s e)) = true) as -> by (apply in_ivb; lia). reflexivity. }
        rewrite E1. rewrite <- (rnorm_inside T S (ev_t e) (ev_s e) W I1 I2) by (intros x y E; unfold W; rewrite E; reflexivity).
        apply rnorm_le. intros x y Hx Hy. specialize (HN x y Hx Hy). unfold W. destruct (_ && _); lra. }
      specialize (IH T S (fun i j => N i j + md (err e i j)) G' C2). cbv beta in IH.
      assert (HN' : forall x y, in_iv x (interval T) = true -> in_iv y (interval S) = true -> 0 <= N x y + md (err e x y)).
      { intros x y Hx Hy. specialize (HN x y Hx Hy). pose proof (md_pos _ _ MD (err e x y)). lra. }
      specialize (IH HN').
      assert (T1 : rnorm T S (aerrs (e :: es)) <= rnorm T S (fun x y => md (err e x y)) + rnorm T S (aerrs es)) by (apply rnorm_add; intros; reflexivity).
      assert (T2 : rnorm T S (fun i j => N i j + md (err e i j)) <= rnorm T S N + rnorm T S (fun x y => md (err e x y))) by (apply rnorm_add; intros; reflexivity).
      cbn [length pow]. set (p := (1 + eps) ^ length es) in *. assert (P : 1 <= p) by (apply pow_R1_Rle; lra).
      set (n := rnorm T S N) in *. assert (0 <= n) by apply rnorm_pos. set (d := rnorm T S (fun x y => md (err e x y))) in *. assert (0 <= d) by apply rnorm_pos.
      assert (D : d <= eps * n) by (eapply Rle_trans; [exact B1|]; apply Rmult_le_compat_l; assumption).
      assert (IH2 : rnorm T S (aerrs es) <= (p - 1) * (n + d)) by (eapply Rle_trans; [exact IH|]; apply Rmult_le_compat_l; lra).
      assert (Q : (p - 1) * (n + d) <= (p - 1) * (n + eps * n)) by (apply Rmult_le_compat_l; lra).
      nra.
  Qed.

  (** ** |alpha| |op A| |op B| *)
  Lemma abs_product_norm : forall ta tb alpha (MA MB : nat -> nat -> C) o m i, 
    rnorm o i (abs_product md ta tb alpha MA MB m) <= md alpha * (rnorm o m (fun x y => md (op_fun ta MA x y)) * rnorm m i (fun x y => md (op_fun tb MB x y))).
  Proof.
    intros ta tb alpha MA MB o m i. unfold rnorm at 1. rewrite <- (sqrt_square (md alpha)) by apply (md_pos _ _ MD). unfold rnorm.
    rewrite <- sqrt_mult_alt by (apply rsum_nonneg; intros; apply rsum_nonneg; intros; apply Rle_0_sqr).
    rewrite <- sqrt_mult_alt by apply Rle_0_sqr. apply sqrt_le_1_alt.
    set (u := fun a k => md (op_fun ta MA (c_off o + a)%nat (c_off m + k)%nat)). set (v := fun k b => md (op_fun tb MB (c_off m + k)%nat (c_off i + b)%nat)).
    set (SU := fun a => rsum (c_size m) (fun k => u a k * u a k)). set (SV := fun b => rsum (c_size m) (fun k => v k b * v k b)).
    assert (E1 : rsum (c_size m) (fun k => rsum (c_size i) (fun b => v k b * v k b)) = rsum (c_size i) SV) by exact (sum_swap Rc _ _ (fun k b => v k b * v k b)).
    change (rsum (c_size o) (fun a => rsum (c_size i) (fun b => abs_product md ta tb alpha MA MB m (c_off o + a) (c_off i + b) * abs_product md ta tb alpha MA MB m (c_off o + a) (c_off i + b))) <=
      md alpha * md alpha * (rsum (c_size o) SU * rsum (c_size m) (fun k => rsum (c_size i) (fun b => v k b * v k b)))). rewrite E1.
    replace (md alpha * md alpha * (rsum (c_size o) SU * rsum (c_size i) SV)) with (rsum (c_size o) (fun a => rsum (c_size i) (fun b => md alpha * md alpha * (SU a * SV b)))).
    2:{ rewrite (rsum_ext _ _ (fun a => (md alpha * md alpha * rsum (c_size i) SV) * SU a)).
        - rewrite rsum_scal. ring.
        - intros a Ha. rewrite (rsum_ext _ _ (fun b => (md alpha * md alpha * SU a) * SV b)) by (intros; ring). rewrite rsum_scal. ring. }
    apply rsum_le. intros a Ha. apply rsum_le. intros b Hb. unfold abs_product, csum. fold (rsum (c_size m)).
    pose proof (cauchy_schwarz (c_size m) (fun k => u a k) (fun k => v k b)) as CS. rewrite !rs_rsum in CS.
    change (sum (K := Rc) (c_size m)) with (rsum (c_size m)).
    set (X := rsum (c_size m) (fun k => u a k * v k b)) in *. fold (SU a) (SV b) in CS.
    change (rsum (c_size m) (fun k => md (op_fun ta MA (c_off o + a) (c_off m + k)) * md (op_fun tb MB (c_off m + k) (c_off i + b)))) with X.
    replace (md alpha * X * (md alpha * X)) with (md alpha * md alpha * (X * X)) by ring. apply Rmult_le_compat_l; [apply Rle_0_sqr|exact CS].
  Qed.
End P.

(** ** The number of truncations *)
Section Count.
  Variable K : Coef.
  Notation hmat := (rtree (hinfo K)).
  Notation hv := rt_val.
  Variable parts : ctree -> list ctree.
  Notation ct := (cluster_tree parts).
  Notation hrep := (hrep parts).
  Local Open Scope nat_scope.
  Notation ls := list_sum.
  Lemma ls_cons : forall x l, ls (x :: l) = x + ls l. Proof. reflexivity. Qed.
  Lemma ls_le : forall X (f g : X -> nat) l, (forall x, In x l -> f x <= g x) -> ls (map f l) <= ls (map g l).
  Proof. intros X f g l H. induction l as [|x l IH]; [apply le_n|]. cbn [map]. rewrite !ls_cons. pose proof (H x (or_introl eq_refl)). pose proof (IH (fun y Hy => H y (or_intror Hy))). lia. Qed.
  Lemma ls_eq : forall X (f g : X -> nat) l, (forall x, In x l -> f x = g x) -> ls (map f l) = ls (map g l).
  Proof. intros X f g l H. f_equal. apply map_ext_in, H. Qed.
  Lemma ls_perm : forall l l', Permutation l l' -> ls l = ls l'.
  Proof. intros l l' H. induction H; cbn [list_sum fold_right] in *; unfold list_sum in *; cbn [fold_right] in *; lia. Qed.
  Lemma ls_mul : forall X (f : X -> nat) c l, ls (map (fun x => c * f x) l) = c * ls (map f l).
  Proof. intros X f c l. induction l as [|x l IH]; [cbn; lia|]. cbn [map]. rewrite !ls_cons, IH. lia. Qed.
  Lemma ls_prod : forall (f : ctree -> ctree -> nat) l l', ls (map (fun p => f (fst p) (snd p)) (list_prod l l')) = ls (map (fun a => ls (map (f a) l')) l).
  Proof.
    intros f l l'. induction l as [|a l IH]; [reflexivity|]. cbn [list_prod map]. rewrite map_app, list_sum_app, ls_cons, IH. f_equal. rewrite map_map. reflexivity.
  Qed.
  Lemma ls_add : forall X (f g : X -> nat) l, ls (map (fun x => f x + g x) l) = ls (map f l) + ls (map g l).
  Proof. intros X f g l. induction l as [|x l IH]; [reflexivity|]. cbn [map]. rewrite !ls_cons, IH. lia. Qed.
  Lemma ls_swap : forall (f : ctree -> ctree -> nat) l l', ls (map (fun a => ls (map (f a) l')) l) = ls (map (fun b => ls (map (fun a => f a b) l)) l').
  Proof.
    intros f l l'. induction l as [|a l IH].
    - cbn [map]. induction l' as [|b l' IH']; [reflexivity|]. cbn [map]. rewrite ls_cons, <- IH'. reflexivity.
    - cbn [map]. rewrite ls_cons, IH. rewrite (ls_eq _ (fun b => ls (map (fun a0 => f a0 b) (a :: l))) (fun b => f a b + ls (map (fun a0 => f a0 b) l))) by reflexivity.
      rewrite ls_add. reflexivity.
  Qed.

  Lemma nodes_node : forall i (cs : list hmat), nodes (RNode i cs) = S (ls (map nodes cs)).
  Proof.
    intros i cs. unfold nodes. cbn [preorder length]. f_equal. induction cs as [|c cs IH]; [reflexivity|]. cbn [map concat flat_map]. rewrite ?app_length, IH. reflexivity.
  Qed.
  (** Size of the block (a, b) of the rows and columns. *)
  Definition size_at (A : hmat) (a b : ctree) : nat := match sub K A a b with Some c => nodes c | None => 0 end.
  Lemma sizes : forall M A, hrep M A -> h_data (hv A) = DNone -> S (ls (map (fun a => ls (map (size_at A a) (ckids (h_s (hv A))))) (ckids (h_t (hv A))))) <= nodes A.
  Proof.
    intros M A H N. rewrite <- (ls_prod (size_at A)).
    assert (Hc : forall p, In p (list_prod (ckids (h_t (hv A))) (ckids (h_s (hv A)))) -> exists k c, nth_error (rt_children A) k = Some c /\ block_of c = p /\ size_at A (fst p) (snd p) = nodes c).
    { intros [a b] Hp. apply in_prod_iff in Hp. destruct Hp as [Ha Hb]. destruct (hrep_child K parts M A a b H N Ha Hb) as (k & c & Hk & Hbk & _ & _ & E1 & _).
      exists k, c. split; [exact Hk|]. split; [exact Hbk|]. unfold size_at. cbn [fst snd]. rewrite E1. reflexivity. }
    destruct H as [i H1 H2 H3 H4 H5 H6|i cs H1 H2 H3 H4 H5 H6 H7 H8]; cbn [rt_val rt_children] in *; [destruct (leaf_ok_data K i H5 N)|].
    rewrite nodes_node. apply le_n_S. rewrite <- (ls_perm _ _ (Permutation_map (fun p => size_at (RNode i cs) (fst p) (snd p)) H7)). rewrite map_map. apply ls_le.
    intros c Hin. destruct (Hc (block_of c)) as (k & c' & Hk & Hb & E); [eapply Permutation_in; [exact H7|apply in_map, Hin]|]. rewrite E.
    assert (c = c'); [|subst; apply le_n]. apply In_nth_error in Hin. destruct Hin as [q Hq].
    assert (ND : NoDup (map block_of cs)) by (eapply Permutation_NoDup; [apply Permutation_sym, H7|apply prod_nodup with parts; assumption]).
    pose proof (unique_index K cs q k c c' ND Hq Hk (eq_sym Hb)). subst q. congruence.
  Qed.
  Definition op_size (t : trans) (A : hmat) (o m : ctree) : nat := if is_N t then size_at A o m else size_at A m o.
  Lemma op_sizes : forall t M A, hrep M A -> h_data (hv A) = DNone -> S (ls (map (fun o => ls (map (op_size t A o) (ckids (mid_of K t A)))) (ckids (out_of K t A)))) <= nodes A.
  Proof.
    intros t M A H N. pose proof (sizes M A H N) as Q. unfold op_size, out_of, mid_of. destruct (is_N t); [exact Q|]. rewrite ls_swap. exact Q.
  Qed.

  Theorem truncations_bound : forall leaves fuel ta tb MA MB A B, hrep MA A -> hrep MB B -> mid_of K ta A = out_of K tb B -> (height K A < fuel) ->
    S (truncations leaves fuel ta tb A B) <= (3 + leaves) * (nodes A * nodes B).
  Proof.
    intros leaves. induction fuel as [|fuel IH]; intros ta tb MA MB A B HA HB HM Hf; [lia|].
    assert (PA : 1 <= nodes A) by (destruct A; rewrite nodes_node; lia). assert (PB : 1 <= nodes B) by (destruct B; rewrite nodes_node; lia).
    assert (P : 1 <= nodes A * nodes B) by nia.
    cbn [truncations]. destruct (h_data (hv A)) eqn:EA; destruct (h_data (hv B)) eqn:EB; try nia.
    pose proof (op_sizes ta MA A HA EA) as SA. pose proof (op_sizes tb MB B HB EB) as SB.
    set (o := out_of K ta A) in *. set (m := mid_of K ta A) in *. set (i := mid_of K tb B) in *. rewrite <- HM in SB.
    set (cnt := fun (o' i' m' : ctree) => match (if is_N ta then sub K A o' m' else sub K A m' o'), (if is_N tb then sub K B m' i' else sub K B i' m') with
              | Some Ac, Some Bc => truncations leaves fuel ta tb Ac Bc | _, _ => 0%nat end).
    set (c := 3 + leaves) in *.
    assert (Q1 : forall o' i' m', In o' (ckids o) -> In i' (ckids i) -> In m' (ckids m) -> S (cnt o' i' m') <= c * (op_size ta A o' m' * op_size tb B m' i')).
    { intros o' i' m' Ho Hi Hm. destruct (op_child K parts ta MA A o' m' HA EA Ho Hm) as (Ac & X1 & _ & H1 & O1 & M1 & G1).
      destruct (op_child K parts tb MB B m' i' HB EB) as (Bc & X2 & _ & H2 & O2 & M2 & _); [rewrite <- HM; exact Hm|exact Hi|].
      assert (cnt o' i' m' = truncations leaves fuel ta tb Ac Bc) as -> by (unfold cnt; rewrite X1, X2; reflexivity).
      assert (op_size ta A o' m' = nodes Ac) as -> by (unfold op_size, size_at; destruct (is_N ta); rewrite X1; reflexivity).
      assert (op_size tb B m' i' = nodes Bc) as -> by (unfold op_size, size_at; destruct (is_N tb); rewrite X2; reflexivity).
      apply (IH ta tb MA MB); try assumption; [congruence|lia]. }
    assert (Q2 : forall o' i', In o' (ckids o) -> In i' (ckids i) -> S (ls (map (cnt o' i') (ckids m))) <= c * ls (map (fun m' => op_size ta A o' m' * op_size tb B m' i') (ckids m))).
    { intros o' i' Ho Hi. rewrite <- ls_mul. assert (Z : forall l, l <> [] -> incl l (ckids m) -> S (ls (map (cnt o' i') l)) <= ls (map (fun m' => c * (op_size ta A o' m' * op_size tb B m' i')) l)).
      { induction l as [|x l IHl]; intros Hl Hin; [congruence|]. cbn [map]. rewrite !ls_cons. pose proof (Q1 o' i' x Ho Hi (Hin x (or_introl eq_refl))) as Hx.
        destruct l as [|y l]; [cbn [map] in *; cbn; lia|]. assert (Hl' : y :: l <> []) by discriminate. specialize (IHl Hl' (fun z Hz => Hin z (or_intror Hz))). lia. }
      apply Z; [apply ckids_nonempty|apply incl_refl]. }
    assert (Q3 : ls (map (fun oi => S (ls (map (cnt (fst oi) (snd oi)) (ckids m)))) (list_prod (ckids o) (ckids i))) <=
      c * ls (map (fun o' => ls (map (fun i' => ls (map (fun m' => op_size ta A o' m' * op_size tb B m' i') (ckids m))) (ckids i))) (ckids o))).
    { rewrite <- (ls_prod (fun o' i' => ls (map (fun m' => op_size ta A o' m' * op_size tb B m' i') (ckids m)))). rewrite <- ls_mul. apply ls_le.
      intros [o' i'] Hp. apply in_prod_iff in Hp. apply Q2; apply Hp. }
    set (sa := fun m' => ls (map (fun o' => op_size ta A o' m') (ckids o))). set (sb := fun m' => ls (map (fun i' => op_size tb B m' i') (ckids i))).
    assert (Q4 : ls (map (fun o' => ls (map (fun i' => ls (map (fun m' => op_size ta A o' m' * op_size tb B m' i') (ckids m))) (ckids i))) (ckids o)) = ls (map (fun m' => sa m' * sb m') (ckids m))).
    { transitivity (ls (map (fun o' => ls (map (fun m' => op_size ta A o' m' * sb m') (ckids m))) (ckids o))).
      - apply ls_eq. intros o' _. rewrite ls_swap. apply ls_eq. intros m' _. unfold sb. rewrite <- ls_mul. reflexivity.
      - rewrite ls_swap. apply ls_eq. intros m' _. unfold sa. rewrite Nat.mul_comm, <- ls_mul. apply ls_eq. intros. apply Nat.mul_comm. }
    assert (Q5 : ls (map (fun m' => sa m' * sb m') (ckids m)) <= ls (map sa (ckids m)) * ls (map sb (ckids m))).
    { generalize (ckids m). induction l as [|x l IHl]; [apply le_n|]. cbn [map]. rewrite !ls_cons. nia. }
    rewrite ls_swap in SA. change (S (ls (map sa (ckids m))) <= nodes A) in SA. change (S (ls (map sb (ckids m))) <= nodes B) in SB.
    generalize dependent (ls (map sa (ckids m))). intros xa SA Q5. generalize dependent (ls (map sb (ckids m))). intros xb SB Q5.
    assert (Q6 : xa * xb + 1 <= nodes A * nodes B) by nia.
    change (S (ls (map (fun oi => S (ls (map (cnt (fst oi) (snd oi)) (ckids m)))) (list_prod (ckids o) (ckids i)))) <= c * (nodes A * nodes B)).
    assert (C1 : 1 <= c) by (unfold c; lia). rewrite Q4 in Q3. apply Nat.le_trans with (S (c * (xa * xb))).
    - apply le_n_S. eapply Nat.le_trans; [exact Q3|]. apply Nat.mul_le_mono_l, Q5.
    - apply Nat.le_trans with (c * (xa * xb + 1)); [lia|]. apply Nat.mul_le_mono_l, Q6.
  Qed.
End Count.
