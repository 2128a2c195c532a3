(** * Products of hierarchical matrices with vectors. *)

From Coq Require Import List Arith Bool Lia Ring Permutation.
From Verif Require Import ClusterModel ClusterSpec IOModel BlockModel BlockSpec BlockProofs Algebra BlasModel BlasProofs
  HMatModel HMatSpec HMatProofs HMatLoops.
Import ListNotations.

Section P.
  Variable K : Coef.
  Notation C := (car K).
  Notation "0" := (c0 K).
  Notation "1" := (c1 K).
  Notation "x + y" := (cadd K x y).
  Notation "x * y" := (cmul K x y).
  Add Ring Kring5 : (c_ring K).

  Lemma scale_out_ok : forall n beta (y : list C), (n <= length y)%nat ->
    exists y', scale_out K n beta y = Some y' /\ length y' = length y /\
      (forall i, (i < n)%nat -> get y' i = beta * get y i) /\ (forall i, (n <= i)%nat -> get y' i = get y i).
  Proof.
    intros n beta y Hn. unfold scale_out. destruct (ceqb_spec K beta 1) as [-> | _].
    - exists y. repeat split; try reflexivity. intros i _. ring.
    - destruct (transform_ok K n (fun c => c * beta) y Hn) as (y' & E1 & E2 & E3). exists y'. split; [exact E1|]. split; [exact E2|]. split.
      + intros i Hi. rewrite E3. destruct (Nat.ltb_spec i n); [ring|lia].
      + intros i Hi. rewrite E3. destruct (Nat.ltb_spec i n); [lia|reflexivity].
  Qed.

  Lemma once_t : forall r L Y sy M t i j, holds_matrix r L Y sy M ->
    (i < c_size (out_cl K t r))%nat -> (j < c_size (in_cl K t r))%nat ->
    (count (tcov K t (c_off (out_cl K t r) + i) (c_off (in_cl K t r) + j)) L +
     count (tcov K t (c_off (in_cl K t r) + j) (c_off (out_cl K t r) + i)) Y = 1)%nat.
  Proof.
    intros r L Y sy M t i j H Hi Hj.
    assert (E : forall a b n, (b < n)%nat -> in_iv (a + b) (a, n) = true).
    { intros a b n Hb. unfold in_iv. cbn [fst snd]. destruct (Nat.leb_spec a (a + b)); [|lia]. destruct (Nat.ltb_spec (a + b) (a + n)); [reflexivity|lia]. }
    unfold tcov, out_cl, in_cl in *. destruct (is_N t); apply (wf_once _ _ _ _ _ (hm_wf _ _ _ _ _ _ H)); apply E; assumption.
  Qed.

  Lemma count_perm : forall {A} (f : A -> bool) l l', Permutation l l' -> count f l = count f l'.
  Proof. intros A f l l' HP. unfold count. induction HP; cbn; try congruence; destruct (f x); try destruct (f y); cbn; congruence. Qed.
  Lemma count_app : forall {A} (f : A -> bool) l l', count f (l ++ l') = (count f l + count f l')%nat.
  Proof. intros A f l l'. unfold count. rewrite filter_app, app_length. reflexivity. Qed.

  Section Root.
    Variables (A : hmat K) (L Y : list (hinfo K)) (sy : symc) (M : nat -> nat -> C).
    Let r := rt_val A.
    Hypothesis HA : hleaves K A = Some (L, Y).
    Hypothesis H : holds_matrix r L Y sy M.
    Variable t : trans.
    Hypothesis Hc : compat K t sy.

    Theorem seq_vec_ok : forall alpha beta x y,
      (c_size (in_cl K t r) <= length x)%nat -> (c_size (out_cl K t r) <= length y)%nat ->
      exists y', seq_vec K t alpha A x beta y = Some y' /\ is_product r M t 1 alpha beta x y y'.
    Proof.
      intros alpha beta x y Hx Hy. unfold seq_vec. rewrite HA. fold r.
      destruct (scale_out_ok (c_size (out_cl K t r)) beta y Hy) as (y1 & S1 & S2 & S3 & S4). rewrite S1.
      destruct (both_loops K r L Y sy M H t 1 alpha (fun t' h x' y' => leaf_vec K t' alpha h x' 1 y') (le_n 1) Hc) with (L' := L) (Y' := Y) (x := x) (y := y1)
        as (y' & E1 & E2 & E3 & E4); try (intros z Hz; exact Hz); try lia.
      - intros t' h Hw Hh. apply leaf_vec_adds; [left; reflexivity|exact Hw|exact Hh].
      - exists y'. split; [exact E1|]. unfold is_product. split; [lia|]. split.
        + intros i c Hi Hq. change (if is_N t then h_t r else h_s r) with (out_cl K t r) in *. change (if is_N t then h_s r else h_t r) with (in_cl K t r).
          rewrite E3 by assumption. rewrite S3 by lia. do 2 f_equal. apply sum_ext. intros j Hj. rewrite (once_t r L Y sy M t i j H Hi Hj). apply nmul_1.
        + intros p Hp. rewrite E4, S4; [reflexivity| |exact Hp]. change (if is_N t then h_t r else h_s r) with (out_cl K t r) in *. lia.
    Qed.

    (** the parallel versions, for any chunks *)
    Lemma critical_ok : forall mu alpha run, (1 <= mu)%nat ->
      (forall t' h, wf_leaf h -> compat K t' (h_sym h) ->
        adds K (run t' h) (c_size (out_cl K t' h)) (c_size (in_cl K t' h)) mu 1 1 (op_fun t' (leaf_entry h))) ->
      forall threads x y, incl (concat (map fst threads)) L -> incl (concat (map snd threads)) Y ->
      (c_size (in_cl K t r) * mu <= length x)%nat -> (c_size (out_cl K t r) * mu <= length y)%nat ->
      exists y', critical_vec K t alpha r mu run threads x y = Some y' /\ length y' = length y /\
        (forall i c, (i < c_size (out_cl K t r))%nat -> (c < mu)%nat -> get y' (i * mu + c) = get y (i * mu + c) +
          alpha * sum (c_size (in_cl K t r)) (fun j => nmul K
            (count (tcov K t (c_off (out_cl K t r) + i) (c_off (in_cl K t r) + j)) (concat (map fst threads)) +
             count (tcov K t (c_off (in_cl K t r) + j) (c_off (out_cl K t r) + i)) (concat (map snd threads)))
            (op_fun t M (c_off (out_cl K t r) + i) (c_off (in_cl K t r) + j) * get x (j * mu + c)))) /\
        (forall p, (c_size (out_cl K t r) * mu <= p)%nat -> get y' p = get y p).
    Proof.
      intros mu alpha run Hmu Hrun. induction threads as [|[c1 c2] ths IH]; intros x y HL HY Hx Hy.
      - exists y. cbn. repeat split; try reflexivity. intros i c _ _. rewrite (sum_0 K) by reflexivity. ring.
      - cbn [map concat fst snd] in HL, HY. cbn [critical_vec]. unfold thread_vec. cbn [fst snd].
        destruct (both_loops K r L Y sy M H t mu 1 run Hmu Hc Hrun) with (L' := c1) (Y' := c2) (x := x) (y := repeat 0 (c_size (out_cl K t r) * mu))
          as (temp & E1 & E2 & E3 & _); [intros z Hz; apply HL, in_or_app; left; exact Hz|intros z Hz; apply HY, in_or_app; left; exact Hz|exact Hx|rewrite repeat_length; lia|].
        rewrite E1. rewrite repeat_length in E2.
        destruct (axpy_ok K (c_size (out_cl K t r) * mu) alpha temp y) as (y1 & F1 & F2 & F3); [lia|exact Hy|]. rewrite F1.
        destruct (IH x y1) as (y' & G1 & G2 & G3 & G4);
          [intros z Hz; apply HL, in_or_app; right; exact Hz|intros z Hz; apply HY, in_or_app; right; exact Hz|exact Hx|lia|].
        exists y'. split; [exact G1|]. split; [lia|]. split.
        + intros i c Hi Hq. rewrite G3, F3 by assumption. destruct (Nat.ltb_spec (i * mu + c) (c_size (out_cl K t r) * mu)); [|nia].
          rewrite E3 by assumption. rewrite get_repeat. cbn [map concat fst snd].
          match goal with |- alpha * (0 + 1 * ?s1) + ?g + alpha * ?s2 = _ => transitivity (g + alpha * (s1 + s2)); [ring|] end.
          do 2 f_equal. rewrite <- (sum_add K). apply sum_ext. intros j _. rewrite !count_app, !nmul_add. ring.
        + intros p Hp. rewrite G4, F3 by exact Hp. destruct (Nat.ltb_spec p (c_size (out_cl K t r) * mu)); [lia|reflexivity].
    Qed.

    Theorem omp_vec_ok : forall threads alpha beta x y,
      Permutation (concat (map fst threads)) L -> Permutation (concat (map snd threads)) Y ->
      (c_size (in_cl K t r) <= length x)%nat -> (c_size (out_cl K t r) <= length y)%nat ->
      exists y', omp_vec K threads t alpha A x beta y = Some y' /\ is_product r M t 1 alpha beta x y y'.
    Proof.
      intros threads alpha beta x y P1 P2 Hx Hy. unfold omp_vec. fold r.
      destruct (scale_out_ok (c_size (out_cl K t r)) beta y Hy) as (y1 & S1 & S2 & S3 & S4). rewrite S1.
      destruct (critical_ok 1 alpha (fun t' h x' y' => leaf_vec K t' 1 h x' 1 y') (le_n 1)) with (threads := threads) (x := x) (y := y1)
        as (y' & E1 & E2 & E3 & E4); try lia.
      - intros t' h Hw Hh. apply leaf_vec_adds; [left; reflexivity|exact Hw|exact Hh].
      - intros z Hz. apply (Permutation_in _ P1 Hz).
      - intros z Hz. apply (Permutation_in _ P2 Hz).
      - exists y'. split; [exact E1|]. unfold is_product. split; [lia|]. split.
        + intros i c Hi Hq. change (if is_N t then h_t r else h_s r) with (out_cl K t r) in *. change (if is_N t then h_s r else h_t r) with (in_cl K t r).
          rewrite E3 by assumption. rewrite S3 by lia. do 2 f_equal. apply sum_ext. intros j Hj.
          rewrite (count_perm _ _ _ P1), (count_perm _ _ _ P2), (once_t r L Y sy M t i j H Hi Hj). apply nmul_1.
        + intros p Hp. rewrite E4, S4; [reflexivity| |exact Hp]. change (if is_N t then h_t r else h_s r) with (out_cl K t r) in *. lia.
    Qed.

    Theorem omp_mat_ok : forall threads mu alpha beta x y, (1 <= mu)%nat ->
      Permutation (concat (map fst threads)) L -> Permutation (concat (map snd threads)) Y ->
      (c_size (in_cl K t r) * mu <= length x)%nat -> (c_size (out_cl K t r) * mu <= length y)%nat ->
      exists y', omp_mat K threads t alpha A x beta y mu = Some y' /\ is_product r M t mu alpha beta x y y'.
    Proof.
      intros threads mu alpha beta x y Hmu P1 P2 Hx Hy. unfold omp_mat. fold r.
      destruct (scale_out_ok (c_size (out_cl K t r) * mu) beta y Hy) as (y1 & S1 & S2 & S3 & S4). rewrite S1.
      destruct (critical_ok mu alpha (fun t' h x' y' => leaf_mat K t' TrN 1 h x' 1 y' mu) Hmu) with (threads := threads) (x := x) (y := y1)
        as (y' & E1 & E2 & E3 & E4); try lia.
      - intros t' h Hw Hh. apply leaf_mat_adds; [left; reflexivity|exact Hw|exact Hh|exact Hmu].
      - intros z Hz. apply (Permutation_in _ P1 Hz).
      - intros z Hz. apply (Permutation_in _ P2 Hz).
      - exists y'. split; [exact E1|]. unfold is_product. split; [lia|]. split.
        + intros i c Hi Hq. change (if is_N t then h_t r else h_s r) with (out_cl K t r) in *. change (if is_N t then h_s r else h_t r) with (in_cl K t r).
          rewrite E3 by assumption. rewrite S3 by nia. do 2 f_equal. apply sum_ext. intros j Hj.
          rewrite (count_perm _ _ _ P1), (count_perm _ _ _ P2), (once_t r L Y sy M t i j H Hi Hj). apply nmul_1.
        + intros p Hp. rewrite E4, S4; [reflexivity| |exact Hp]. change (if is_N t then h_t r else h_s r) with (out_cl K t r) in *. lia.
    Qed.

    Theorem seq_mat_ok : forall mu alpha beta x y, (1 <= mu)%nat ->
      (c_size (in_cl K t r) * mu <= length x)%nat -> (c_size (out_cl K t r) * mu <= length y)%nat ->
      exists y', seq_mat K t alpha A x beta y mu = Some y' /\ is_product r M t mu alpha beta x y y'.
    Proof.
      intros mu alpha beta x y Hmu Hx Hy. unfold seq_mat. rewrite HA. apply omp_mat_ok; try assumption; cbn; rewrite app_nil_r; reflexivity.
    Qed.
  End Root.

  (** a root that is a leaf *)
  Lemma root_leaf : forall (i : hinfo K), hleaves K (RNode i []) = Some ([i], if negb (sym_is_N (h_sym i)) && negb (c_off (h_t i) =? c_off (h_s i))%nat then [i] else []).
  Proof.
    intros i. unfold hleaves. cbn. destruct (_ && _)%bool; reflexivity.
  Qed.
End P.
