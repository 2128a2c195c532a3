(** * Rounding errors of the products of a hierarchical matrix and a vector: the loops. *)

From Coq Require Import List Arith Bool Lia Ring Reals Lra Permutation.
From Verif Require Import ClusterModel ClusterSpec IOModel BlockModel BlockSpec BlockProofs Algebra BlasModel BlasProofs HMatModel HMatSpec HMatProofs HMatLoops HMatProducts
  HMatBuild BlockSym RealNum CompReal AccProofs RoundModel RoundSpec RoundProofs.
Import ListNotations.
Local Open Scope R_scope.

(** *** The matrix of absolute values *)
Section Abs.
  Variables (r : hinfo Rc) (L Y : list (hinfo Rc)) (sy : symc).
  Hypothesis W : well_formed r L Y sy.
  Lemma abs_entries : forall h, In h L -> forall i j, (i < c_size (h_t h))%nat -> (j < c_size (h_s h))%nat ->
    leaf_abs h i j = abs_value L Y (c_off (h_t h) + i) (c_off (h_s h) + j).
  Proof.
    intros h Hh i j Hi Hj. destruct (wf_in _ _ _ _ _ W h Hh) as [C1 C2]. apply contains_iff in C1, C2.
    pose proof (wf_once _ _ _ _ _ W (c_off (h_t h) + i) (c_off (h_s h) + j)) as O.
    unfold abs_value. rewrite (find_unique (hcovers (c_off (h_t h) + i) (c_off (h_s h) + j)) L h).
    - f_equal; lia.
    - rewrite <- O; [lia| |]; apply in_ivb; lia.
    - exact Hh.
    - unfold hcovers. apply andb_true_iff. split; apply in_ivb; lia.
  Qed.
  Lemma abs_mirror : forall h, In h Y -> forall i j, (i < c_size (h_t h))%nat -> (j < c_size (h_s h))%nat ->
    abs_value L Y (c_off (h_s h) + j) (c_off (h_t h) + i) = leaf_abs h i j.
  Proof.
    intros h Hh i j Hi Hj.
    destruct (wf_sub _ _ _ _ _ W h Hh) as (HL & C1 & C2). apply contains_iff in C1, C2.
    assert (F : hcovers (c_off (h_t h) + i) (c_off (h_s h) + j) h = true) by (unfold hcovers; apply andb_true_iff; split; apply in_ivb; lia).
    pose proof (wf_once _ _ _ _ _ W (c_off (h_s h) + j) (c_off (h_t h) + i)) as O. pose proof (count_pos (hcovers (c_off (h_t h) + i) (c_off (h_s h) + j)) Y h Hh F) as Q.
    assert (Q1 : (count (hcovers (c_off (h_s h) + j) (c_off (h_t h) + i)) L + count (hcovers (c_off (h_t h) + i) (c_off (h_s h) + j)) Y = 1)%nat) by (apply O; apply in_ivb; lia).
    unfold abs_value. rewrite (find_zero (hcovers (c_off (h_s h) + j) (c_off (h_t h) + i)) L) by lia.
    rewrite (find_unique (hcovers (c_off (h_t h) + i) (c_off (h_s h) + j)) Y h); [f_equal; lia|lia|exact Hh|exact F].
  Qed.
End Abs.

Section Loops.
  Variables (u : R) (B : blas).
  Hypothesis HB : accurate_blas u B.
  Let Hu : 0 <= u := ab_u u B HB.

  Section Gen.
    Variable A : Type.
    Variables (lin lout : nat).
    Variables (src dst isz osz cost : A -> nat).
    Variable run : A -> vec -> vec -> option vec.
    Variables (ni no : nat) (m ma : nat -> nat -> R).
    Definition rfits (h : A) : Prop :=
      (lin <= src h)%nat /\ (src h + isz h <= lin + ni)%nat /\ (lout <= dst h)%nat /\ (dst h + osz h <= lout + no)%nat /\
      radds u (run h) (osz h) (isz h) (cost h) (fun i j => m (dst h + i)%nat (src h + j)%nat) (fun i j => ma (dst h + i)%nat (src h + j)%nat) /\
      forall i j, (i < osz h)%nat -> (j < isz h)%nat -> Rabs (m (dst h + i)%nat (src h + j)%nat) <= ma (dst h + i)%nat (src h + j)%nat.

    Definition cov (i j : nat) (h : A) : bool := gcov A src dst isz osz i j h.
    Definition psum (l : list A) (i : nat) (f : nat -> R) : R := rsum ni (fun j => nmul Rc (count (cov (lout + i) (lin + j)) l) (f j)).
    Definition pcost (l : list A) (i : nat) : nat := list_sum (map (fun h => if in_iv (lout + i) (dst h, osz h) then cost h else 0%nat) l).

    Lemma psum_in : forall h l i f, (lin <= src h)%nat -> (src h + isz h <= lin + ni)%nat -> in_iv (lout + i) (dst h, osz h) = true ->
      psum (h :: l) i f = rsum (isz h) (fun j => f (src h - lin + j)%nat) + psum l i f.
    Proof.
      intros h l i f H1 H2 Hi. unfold psum.
      assert (E : rsum (isz h) (fun j => f (src h - lin + j)%nat) = rsum ni (fun j => if (src h - lin <=? j)%nat && (j <? src h - lin + isz h)%nat then f j else 0))
        by (symmetry; apply (sum_window Rc ni (src h - lin) (isz h) f); lia).
      rewrite E.
      rewrite <- rsum_plus. apply rsum_ext. intros j Hj. unfold count. cbn [filter]. unfold cov at 1, gcov. rewrite Hi. cbn [andb]. unfold in_iv. cbn [fst snd].
      destruct (Nat.leb_spec (src h) (lin + j)), (Nat.leb_spec (src h - lin) j); try lia; cbn [andb].
      - destruct (Nat.ltb_spec (lin + j) (src h + isz h)), (Nat.ltb_spec j (src h - lin + isz h)); try lia; cbn [length nmul]; [reflexivity|]. symmetry. apply Rplus_0_l.
      - symmetry. apply Rplus_0_l.
    Qed.
    Lemma psum_out : forall h l i f, in_iv (lout + i) (dst h, osz h) = false -> psum (h :: l) i f = psum l i f.
    Proof.
      intros h l i f Hi. unfold psum. apply rsum_ext. intros j Hj. unfold count. cbn [filter]. unfold cov at 1, gcov. rewrite Hi. reflexivity.
    Qed.
    Lemma psum_nil : forall i f, psum [] i f = 0.
    Proof. intros. unfold psum. rewrite <- (rsum_0 ni). apply rsum_ext. intros. reflexivity. Qed.

    Lemma gl_round : forall l (x y : vec) (S AA : nat -> R) (N : nat -> nat), (forall h, In h l -> rfits h) -> (ni <= length x)%nat -> (no <= length y)%nat ->
      (forall i, (i < no)%nat -> near u (N i) (get y i) (S i) (AA i)) ->
      exists y', gloop Rc A lin lout 1 src dst run l x y = Some y' /\ length y' = length y /\
        (forall i, (i < no)%nat -> near u (N i + pcost l i) (get y' i) (S i + psum l i (fun j => m (lout + i)%nat (lin + j)%nat * get x j))
           (AA i + psum l i (fun j => ma (lout + i)%nat (lin + j)%nat * Rabs (get x j)))) /\
        (forall p, (no <= p)%nat -> get y' p = get y p).
    Proof.
      induction l as [|h l IH]; intros x y S AA N Hl Hx Hy HN.
      - exists y. split; [reflexivity|]. split; [reflexivity|]. split; [|reflexivity]. intros i Hi. rewrite !psum_nil, !Rplus_0_r. unfold pcost. cbn. rewrite Nat.add_0_r. apply HN, Hi.
      - destruct (Hl h (or_introl eq_refl)) as (F1 & F2 & F3 & F4 & Hadd & Hle). cbn [gloop].
        destruct (Nat.leb_spec lin (src h)); [|lia]. unfold ptr at 1. rewrite !Nat.mul_1_r. destruct (Nat.leb_spec (src h - lin) (length x)); [|lia].
        destruct (Hadd (skipn (src h - lin) x) (skipn (dst h - lout) y)) as (w & W1 & W2 & W3 & W4);
          [rewrite skipn_length; lia|rewrite skipn_length; lia|].
        destruct (write_at_ok Rc y (dst h) lout (run h (skipn (src h - lin) x)) w) as (y1 & Y1 & Y2 & Y3); try assumption; try lia.
        rewrite Y1.
        set (c := fun i f => if in_iv (lout + i) (dst h, osz h) then rsum (isz h) (fun j => f (src h - lin + j)%nat) else 0).
        assert (HN1 : forall i, (i < no)%nat -> near u (N i + (if in_iv (lout + i) (dst h, osz h) then cost h else 0%nat)) (get y1 i)
          (S i + c i (fun j => m (lout + i)%nat (lin + j)%nat * get x j)) (AA i + c i (fun j => ma (lout + i)%nat (lin + j)%nat * Rabs (get x j)))).
        { intros i Hi. unfold c. destruct (in_iv (lout + i) (dst h, osz h)) eqn:Ei.
          - unfold in_iv in Ei. cbn [fst snd] in Ei. apply andb_true_iff in Ei. destruct Ei as [E1 E2]. apply Nat.leb_le in E1. apply Nat.ltb_lt in E2.
            set (i' := (lout + i - dst h)%nat) in *. assert (Hi' : (i' < osz h)%nat) by (unfold i'; lia).
            assert (G1 : get y1 i = get w i'). { rewrite Y3. destruct (Nat.ltb_spec i (dst h - lout)); [lia|]. f_equal. unfold i'. lia. }
            assert (G2 : get (skipn (dst h - lout) y) i' = get y i). { rewrite get_skipn. f_equal. unfold i'. lia. }
            specialize (W3 i' Hi'). rewrite G2 in W3. rewrite <- G1 in W3.
            assert (Ed : (dst h + i' = lout + i)%nat) by (unfold i'; lia).
            assert (Q1 : rsum (isz h) (fun j => m (dst h + i')%nat (src h + j)%nat * get (skipn (src h - lin) x) j) = rsum (isz h) (fun j => m (lout + i)%nat (lin + (src h - lin + j))%nat * get x (src h - lin + j)%nat)).
            { apply rsum_ext. intros j Hj. rewrite get_skipn, Ed. do 2 f_equal. lia. }
            assert (Q2 : rsum (isz h) (fun j => ma (dst h + i')%nat (src h + j)%nat * Rabs (get (skipn (src h - lin) x) j)) = rsum (isz h) (fun j => ma (lout + i)%nat (lin + (src h - lin + j))%nat * Rabs (get x (src h - lin + j)%nat))).
            { apply rsum_ext. intros j Hj. rewrite get_skipn, Ed. do 2 f_equal. lia. }
            rewrite Q1, Q2 in W3.
            apply (near_step u Hu) with (y := get y i); [apply HN, Hi|exact W3|].
            apply rsum_abs. intros j Hj. rewrite Rabs_mult. apply Rmult_le_compat_r; [apply Rabs_pos|].
            pose proof (Hle i' j Hi' Hj) as Q. rewrite Ed in Q. replace (lin + (src h - lin + j))%nat with (src h + j)%nat by lia. exact Q.
          - rewrite !Rplus_0_r, Nat.add_0_r.
            assert (G : get y1 i = get y i).
            { rewrite Y3. destruct (Nat.ltb_spec i (dst h - lout)) as [Hlt|Hge]; [reflexivity|].
              unfold in_iv in Ei. cbn [fst snd] in Ei. apply andb_false_iff in Ei.
              assert ((lout + i < dst h)%nat \/ (dst h + osz h <= lout + i)%nat) as D by (destruct Ei as [E|E]; [apply Nat.leb_gt in E; left; exact E|apply Nat.ltb_ge in E; right; exact E]).
              rewrite W4 by lia. rewrite get_skipn. f_equal. lia. }
            rewrite G. apply HN, Hi. }
        destruct (IH x y1 _ _ _ (fun h' Hh' => Hl h' (or_intror Hh')) Hx ltac:(lia) HN1) as (y' & Z1 & Z2 & Z3 & Z4).
        exists y'. split; [exact Z1|]. split; [lia|]. split.
        + intros i Hi. specialize (Z3 i Hi). unfold pcost in *. cbn [map]. change (list_sum (?a :: ?b)) with (a + list_sum b)%nat. rewrite Nat.add_assoc.
          unfold c in Z3. destruct (in_iv (lout + i) (dst h, osz h)) eqn:Ei.
          * rewrite !(psum_in h l i) by assumption. rewrite <- !Rplus_assoc. exact Z3.
          * rewrite !(psum_out h l i) by assumption. rewrite !Rplus_0_r in Z3. exact Z3.
        + intros p Hp. rewrite Z4 by exact Hp. rewrite Y3. destruct (Nat.ltb_spec p (dst h - lout)); [reflexivity|].
          rewrite W4 by lia. rewrite get_skipn. f_equal. lia.
    Qed.
  End Gen.

  Lemma nmul_R : forall n (a b : R), nmul Rc n (a * b) = a * nmul Rc n b.
  Proof. induction n as [|n IH]; intros a b; cbn; [lra|]. rewrite IH. cbn. lra. Qed.

  Section Root.
    Variables (r : hinfo Rc) (L Y : list (hinfo Rc)) (sy : symc).
    Hypothesis W : well_formed r L Y sy.
    Variable t : trans.
    Hypothesis Hc : compat Rc t sy.
    Let M := value (K := Rc) L Y sy.
    Let MA := abs_value L Y.
    Let lin := c_off (in_cl Rc t r).
    Let lout := c_off (out_cl Rc t r).
    Let ni := c_size (in_cl Rc t r).
    Let no := c_size (out_cl Rc t r).
    Let H : holds_matrix r L Y sy M := value_holds Rc r L Y sy W.

    Definition em (a : R) (i j : nat) : R := a * op_fun (K := Rc) t M i j.
    Definition eam (a : R) (i j : nat) : R := Rabs a * op_fun (K := Rc) t MA i j.

    Lemma rfits_leaves : forall a h, In h L -> rfits (hinfo Rc) lin lout (fun h => c_off (in_cl Rc t h)) (fun h => c_off (out_cl Rc t h))
      (fun h => c_size (in_cl Rc t h)) (fun h => c_size (out_cl Rc t h)) (fun h => leaf_cost (c_size (in_cl Rc t h)) h)
      (fun h x y => r_leaf B t a h x 1 y) ni no (em a) (eam a) h.
    Proof.
      intros a h Hh. destruct (wf_in _ _ _ _ _ W h Hh) as [E1 E2]. apply contains_iff in E1, E2.
      destruct (wf_leaves _ _ _ _ _ W h Hh) as [Hw _]. pose proof (leaf_compat Rc r L Y sy M H t Hc h Hh) as Hcp.
      assert (G1 : forall i j, (i < c_size (out_cl Rc t h))%nat -> (j < c_size (in_cl Rc t h))%nat ->
        op_fun (K := Rc) t (leaf_entry h) i j = op_fun (K := Rc) t M (c_off (out_cl Rc t h) + i) (c_off (in_cl Rc t h) + j)).
      { intros i j Hi Hj. pose proof (hm_entries _ _ _ _ _ _ H h Hh) as Q. unfold out_cl, in_cl in *. destruct t; cbn [is_N op_fun] in *; rewrite Q by assumption; reflexivity. }
      assert (G2 : forall i j, (i < c_size (out_cl Rc t h))%nat -> (j < c_size (in_cl Rc t h))%nat ->
        op_fun (K := Rc) t (leaf_abs h) i j = op_fun (K := Rc) t MA (c_off (out_cl Rc t h) + i) (c_off (in_cl Rc t h) + j)).
      { intros i j Hi Hj. pose proof (abs_entries r L Y sy W h Hh) as Q. unfold out_cl, in_cl in *. destruct t; cbn [is_N op_fun] in *; rewrite Q by assumption; reflexivity. }
      unfold rfits, lin, lout, ni, no.
      split; [unfold in_cl, out_cl; destruct (is_N t); lia|]. split; [unfold in_cl, out_cl; destruct (is_N t); lia|].
      split; [unfold in_cl, out_cl; destruct (is_N t); lia|]. split; [unfold in_cl, out_cl; destruct (is_N t); lia|]. split.
      - eapply radds_ext; [|apply (r_leaf_adds u B HB t a h Hw Hcp)]. intros i j Hi Hj. unfold em, eam. rewrite (G1 i j Hi Hj), (G2 i j Hi Hj). split; reflexivity.
      - intros i j Hi Hj. unfold em, eam. rewrite Rabs_mult. apply Rmult_le_compat_l; [apply Rabs_pos|]. rewrite <- (G1 i j Hi Hj), <- (G2 i j Hi Hj).
        destruct t; cbn [op_fun]; apply leaf_abs_le.
    Qed.

    Lemma rfits_sym : forall a h, Y <> [] -> In h Y -> rfits (hinfo Rc) lin lout (fun h => c_off (out_cl Rc t h)) (fun h => c_off (in_cl Rc t h))
      (fun h => c_size (out_cl Rc t h)) (fun h => c_size (in_cl Rc t h)) (fun h => leaf_cost (c_size (out_cl Rc t h)) h)
      (fun h x y => r_leaf B (trans_sym t (h_lsym r)) a h x 1 y) ni no (em a) (eam a) h.
    Proof.
      intros a h HY Hh. destruct (wf_sub _ _ _ _ _ W h Hh) as (HL & E1 & E2). apply contains_iff in E1, E2.
      destruct (wf_lsym _ _ _ _ _ W HY) as [Es Hs]. rewrite Es.
      destruct (wf_leaves _ _ _ _ _ W h HL) as [Hw Hsy].
      assert (Hts : compat Rc (trans_sym t sy) (h_sym h)).
      { destruct Hsy as [-> | ->]; [exact I|]. destruct t, sy; cbn in *; try tauto; try (left; discriminate); destruct Hc; discriminate || auto. }
      assert (Ei : in_cl Rc (trans_sym t sy) h = out_cl Rc t h) by (unfold in_cl, out_cl, trans_sym; destruct t, (sym_is_S sy); reflexivity).
      assert (Eo : out_cl Rc (trans_sym t sy) h = in_cl Rc t h) by (unfold in_cl, out_cl, trans_sym; destruct t, (sym_is_S sy); reflexivity).
      assert (G1 : forall i j, (i < c_size (in_cl Rc t h))%nat -> (j < c_size (out_cl Rc t h))%nat ->
        op_fun (K := Rc) (trans_sym t sy) (leaf_entry h) i j = op_fun (K := Rc) t M (c_off (in_cl Rc t h) + i) (c_off (out_cl Rc t h) + j)).
      { assert (G : forall i j, (i < c_size (h_t h))%nat -> (j < c_size (h_s h))%nat -> M (c_off (h_s h) + j)%nat (c_off (h_t h) + i)%nat = leaf_entry h i j).
        { intros i j Hi Hj. rewrite (hm_entries _ _ _ _ _ _ H h HL) by assumption.
          transitivity (flip (K := Rc) sy (M (c_off (h_t h) + i)%nat (c_off (h_s h) + j)%nat)); [|destruct sy; reflexivity].
          apply (hm_sym _ _ _ _ _ _ H h Hh); apply in_ivb; lia. }
        intros i j Hi Hj. unfold in_cl, out_cl, trans_sym in *. destruct t; cbn [is_N op_fun] in *.
        - rewrite G by assumption. destruct (sym_is_S sy); reflexivity.
        - symmetry. apply G; assumption.
        - symmetry. apply G; assumption. }
      assert (G2 : forall i j, (i < c_size (in_cl Rc t h))%nat -> (j < c_size (out_cl Rc t h))%nat ->
        op_fun (K := Rc) (trans_sym t sy) (leaf_abs h) i j = op_fun (K := Rc) t MA (c_off (in_cl Rc t h) + i) (c_off (out_cl Rc t h) + j)).
      { pose proof (abs_mirror r L Y sy W h Hh) as G. fold MA in G.
        intros i j Hi Hj. unfold in_cl, out_cl, trans_sym in *. destruct t; cbn [is_N op_fun] in *.
        - rewrite G by assumption. destruct (sym_is_S sy); reflexivity.
        - symmetry. apply G; assumption.
        - symmetry. apply G; assumption. }
      unfold rfits, lin, lout, ni, no.
      split; [unfold in_cl, out_cl; destruct (is_N t); lia|]. split; [unfold in_cl, out_cl; destruct (is_N t); lia|].
      split; [unfold in_cl, out_cl; destruct (is_N t); lia|]. split; [unfold in_cl, out_cl; destruct (is_N t); lia|]. split.
      - pose proof (r_leaf_adds u B HB (trans_sym t sy) a h Hw Hts) as Q. rewrite Ei, Eo in Q.
        eapply radds_ext; [|exact Q]. intros i j Hi Hj. unfold em, eam. rewrite (G1 i j Hi Hj), (G2 i j Hi Hj). split; reflexivity.
      - intros i j Hi Hj. unfold em, eam. rewrite Rabs_mult. apply Rmult_le_compat_l; [apply Rabs_pos|]. rewrite <- (G1 i j Hi Hj), <- (G2 i j Hi Hj).
        destruct (trans_sym t sy); cbn [op_fun]; apply leaf_abs_le.
    Qed.

    (** The part of the row i of the product that two lists of leaves contribute. *)
    Definition tsum (L' Y' : list (hinfo Rc)) (i : nat) (f : nat -> R) : R :=
      rsum ni (fun j => nmul Rc (count (tcov Rc t (lout + i) (lin + j)) L' + count (tcov Rc t (lin + j) (lout + i)) Y') (f j)).
    Lemma tsum_scal : forall L' Y' i a f, tsum L' Y' i (fun j => a * f j) = a * tsum L' Y' i f.
    Proof. intros. unfold tsum. rewrite <- rsum_scal. apply rsum_ext. intros. apply nmul_R. Qed.
    Lemma tsum_ext : forall L' Y' i f g, (forall j, f j = g j) -> tsum L' Y' i f = tsum L' Y' i g.
    Proof. intros L' Y' i f g E. unfold tsum. apply rsum_ext. intros. rewrite E. reflexivity. Qed.
    Lemma tsum_app : forall L1 L2 Y1 Y2 i f, tsum (L1 ++ L2) (Y1 ++ Y2) i f = tsum L1 Y1 i f + tsum L2 Y2 i f.
    Proof.
      intros. unfold tsum. rewrite <- rsum_plus. apply rsum_ext. intros j Hj. rewrite !(count_app). 
      replace (count (tcov Rc t (lout + i) (lin + j)) L1 + count (tcov Rc t (lout + i) (lin + j)) L2 + (count (tcov Rc t (lin + j) (lout + i)) Y1 + count (tcov Rc t (lin + j) (lout + i)) Y2))%nat
        with ((count (tcov Rc t (lout + i) (lin + j)) L1 + count (tcov Rc t (lin + j) (lout + i)) Y1) + (count (tcov Rc t (lout + i) (lin + j)) L2 + count (tcov Rc t (lin + j) (lout + i)) Y2))%nat by lia.
      apply (nmul_add Rc).
    Qed.
    Lemma tsum_all : forall L' Y' i f, Permutation L' L -> Permutation Y' Y -> (i < no)%nat -> tsum L' Y' i f = rsum ni f.
    Proof.
      intros L' Y' i f P1 P2 Hi. unfold tsum. apply rsum_ext. intros j Hj.
      rewrite (count_perm _ _ _ P1), (count_perm _ _ _ P2). pose proof (once_t Rc r L Y sy M t i j H Hi Hj) as O. fold lin lout in O. rewrite O. apply (nmul_1 Rc).
    Qed.

    Definition f1 (x : vec) (i j : nat) : R := op_fun (K := Rc) t M (lout + i) (lin + j) * get x j.
    Definition f2 (x : vec) (i j : nat) : R := op_fun (K := Rc) t MA (lout + i) (lin + j) * Rabs (get x j).

    Lemma both_round : forall a L' Y' (x y : vec) (S AA : nat -> R) (N : nat -> nat), incl L' L -> incl Y' Y -> (ni <= length x)%nat -> (no <= length y)%nat ->
      (forall i, (i < no)%nat -> near u (N i) (get y i) (S i) (AA i)) ->
      exists y', match leaves_loop Rc t lin lout 1 (fun t' h x' y' => r_leaf B t' a h x' 1 y') L' x y with
        | None => None
        | Some y2 => if sym_is_N (h_lsym r) then Some y2 else sym_loop Rc t (trans_sym t (h_lsym r)) lin lout 1 (fun t' h x' y' => r_leaf B t' a h x' 1 y') Y' x y2
        end = Some y' /\ length y' = length y /\
        (forall i, (i < no)%nat -> near u (N i + row_cost t L' Y' (lout + i)) (get y' i) (S i + a * tsum L' Y' i (f1 x i)) (AA i + Rabs a * tsum L' Y' i (f2 x i))) /\
        (forall p, (no <= p)%nat -> get y' p = get y p).
    Proof.
      intros a L' Y' x y S AA N HL HY Hx Hy HN. rewrite leaves_gloop.
      destruct (gl_round (hinfo Rc) lin lout (fun h => c_off (in_cl Rc t h)) (fun h => c_off (out_cl Rc t h)) (fun h => c_size (in_cl Rc t h)) (fun h => c_size (out_cl Rc t h))
        (fun h => leaf_cost (c_size (in_cl Rc t h)) h) (fun h x y => r_leaf B t a h x 1 y) ni no (em a) (eam a) L' x y S AA N) as (y2 & Y1 & Y2 & Y3 & Y4);
        [intros h Hh; apply rfits_leaves, HL, Hh|exact Hx|exact Hy|exact HN|].
      rewrite Y1.
      assert (Ec : forall i j l, count (cov (hinfo Rc) (fun h => c_off (in_cl Rc t h)) (fun h => c_off (out_cl Rc t h))
        (fun h => c_size (in_cl Rc t h)) (fun h => c_size (out_cl Rc t h)) i j) l = count (tcov Rc t i j) l).
      { intros i j l. unfold count. f_equal. apply filter_ext. intros h. unfold cov, gcov, tcov, hcovers, in_cl, out_cl, interval. destruct (is_N t); [reflexivity|apply andb_comm]. }
      assert (Es : forall i j l, count (cov (hinfo Rc) (fun h => c_off (out_cl Rc t h)) (fun h => c_off (in_cl Rc t h))
        (fun h => c_size (out_cl Rc t h)) (fun h => c_size (in_cl Rc t h)) i j) l = count (tcov Rc t j i) l).
      { intros i j l. unfold count. f_equal. apply filter_ext. intros h. unfold cov, gcov, tcov, hcovers, in_cl, out_cl, interval. destruct (is_N t); [apply andb_comm|reflexivity]. }
      assert (D1 : forall l i f, psum (hinfo Rc) lin lout (fun h => c_off (in_cl Rc t h)) (fun h => c_off (out_cl Rc t h)) (fun h => c_size (in_cl Rc t h)) (fun h => c_size (out_cl Rc t h)) ni l i f = tsum l [] i f).
      { intros l i f. unfold psum, tsum. apply rsum_ext. intros j Hj. rewrite Ec. cbn [count filter length]. rewrite Nat.add_0_r. reflexivity. }
      assert (D2 : forall l i f, psum (hinfo Rc) lin lout (fun h => c_off (out_cl Rc t h)) (fun h => c_off (in_cl Rc t h)) (fun h => c_size (out_cl Rc t h)) (fun h => c_size (in_cl Rc t h)) ni l i f = tsum [] l i f).
      { intros l i f. unfold psum, tsum. apply rsum_ext. intros j Hj. rewrite Es. reflexivity. }
      assert (F1 : forall i (l1 l2 : list (hinfo Rc)), tsum l1 l2 i (fun j => em a (lout + i) (lin + j) * get x j) = a * tsum l1 l2 i (f1 x i)).
      { intros. rewrite <- tsum_scal. apply tsum_ext. intros j. unfold em, f1. ring. }
      assert (F2 : forall i (l1 l2 : list (hinfo Rc)), tsum l1 l2 i (fun j => eam a (lout + i) (lin + j) * Rabs (get x j)) = Rabs a * tsum l1 l2 i (f2 x i)).
      { intros. rewrite <- tsum_scal. apply tsum_ext. intros j. unfold eam, f2. ring. }
      assert (Y5 : forall i, (i < no)%nat -> near u (N i + row_cost t L' [] (lout + i)) (get y2 i) (S i + a * tsum L' [] i (f1 x i)) (AA i + Rabs a * tsum L' [] i (f2 x i))).
      { intros i Hi. specialize (Y3 i Hi). rewrite !D1, F1, F2 in Y3. unfold row_cost. cbn [map list_sum fold_right]. rewrite Nat.add_0_r. exact Y3. }
      destruct Y' as [|h0 Y'].
      - exists y2. split; [destruct (sym_is_N (h_lsym r)); reflexivity|]. split; [exact Y2|]. split; [exact Y5|exact Y4].
      - assert (HYn : Y <> []) by (intros E; specialize (HY h0 (or_introl eq_refl)); rewrite E in HY; destruct HY).
        destruct (wf_lsym _ _ _ _ _ W HYn) as [Es1 Es2].
        assert (NS : forall s, s <> SyN -> sym_is_N s = false) by (intros [| | |]; try reflexivity; congruence).
        replace (sym_is_N (h_lsym r)) with false by (rewrite Es1; symmetry; apply NS, Es2).
        rewrite sym_gloop.
        destruct (gl_round (hinfo Rc) lin lout (fun h => c_off (out_cl Rc t h)) (fun h => c_off (in_cl Rc t h)) (fun h => c_size (out_cl Rc t h)) (fun h => c_size (in_cl Rc t h))
          (fun h => leaf_cost (c_size (out_cl Rc t h)) h) (fun h x y => r_leaf B (trans_sym t (h_lsym r)) a h x 1 y) ni no (em a) (eam a) (h0 :: Y') x y2 (fun i => S i + a * tsum L' [] i (f1 x i)) (fun i => AA i + Rabs a * tsum L' [] i (f2 x i)) (fun i => (N i + row_cost t L' [] (lout + i))%nat)) as (y' & Z1 & Z2 & Z3 & Z4);
          [intros h Hh; apply (rfits_sym a h HYn); apply HY, Hh|exact Hx|lia|exact Y5|].
        exists y'. split; [exact Z1|]. split; [lia|]. split.
        + intros i Hi. specialize (Z3 i Hi). rewrite !D2, F1, F2 in Z3. rewrite !Rplus_assoc, <- !Rmult_plus_distr_l, <- !tsum_app, !app_nil_r in Z3. cbn [app] in Z3.
          match type of Z3 with near _ ?n _ _ _ => replace (N i + row_cost t L' (h0 :: Y') (lout + i))%nat with n; [exact Z3|] end.
          rewrite <- Nat.add_assoc. f_equal. unfold row_cost. change (list_sum (map (fun h => if in_iv (lout + i) (interval (in_cl Rc t h)) then leaf_cost (c_size (out_cl Rc t h)) h else 0%nat) [])) with 0%nat.
          rewrite Nat.add_0_r. reflexivity.
        + intros p Hp. rewrite Z4, Y4 by exact Hp. reflexivity.
    Qed.

    Lemma row_cost_app : forall L1 L2 Y1 Y2 i, row_cost t (L1 ++ L2) (Y1 ++ Y2) i = (row_cost t L1 Y1 i + row_cost t L2 Y2 i)%nat.
    Proof. intros. unfold row_cost. rewrite !map_app, !list_sum_app. lia. Qed.
    Lemma list_sum_perm : forall l l', Permutation l l' -> list_sum l = list_sum l'.
    Proof. intros l l' P. induction P; cbn in *; unfold list_sum in *; cbn in *; lia. Qed.
    Lemma row_cost_perm : forall L1 L2 Y1 Y2 i, Permutation L1 L2 -> Permutation Y1 Y2 -> row_cost t L1 Y1 i = row_cost t L2 Y2 i.
    Proof. intros L1 L2 Y1 Y2 i P1 P2. unfold row_cost. f_equal; apply list_sum_perm, Permutation_map; assumption. Qed.

    Lemma critical_round : forall a threads (x y : vec) (S AA : nat -> R) (N : nat -> nat), incl (concat (map fst threads)) L -> incl (concat (map snd threads)) Y ->
      (ni <= length x)%nat -> (no <= length y)%nat -> (forall i, (i < no)%nat -> near u (N i) (get y i) (S i) (AA i)) ->
      exists y', r_critical B t a r threads x y = Some y' /\ length y' = length y /\
        (forall i, (i < no)%nat -> near u (N i + (2 * length threads + row_cost t (concat (map fst threads)) (concat (map snd threads)) (lout + i))) (get y' i)
          (S i + a * tsum (concat (map fst threads)) (concat (map snd threads)) i (f1 x i)) (AA i + Rabs a * tsum (concat (map fst threads)) (concat (map snd threads)) i (f2 x i))) /\
        (forall p, (no <= p)%nat -> get y' p = get y p).
    Proof.
      intros a. induction threads as [|[l1 l2] ths IH]; intros x y S AA N HL HY Hx Hy HN.
      - exists y. split; [reflexivity|]. split; [reflexivity|]. split; [|reflexivity]. intros i Hi. cbn [map concat length].
        assert (Z : forall f, tsum [] [] i f = 0) by (intros f; unfold tsum; rewrite <- (rsum_0 ni); apply rsum_ext; intros; reflexivity).
        rewrite !Z, !Rmult_0_r, !Rplus_0_r. unfold row_cost. cbn. rewrite Nat.add_0_r. apply HN, Hi.
      - cbn [map concat fst snd] in *. cbn [r_critical]. unfold thread_vec. cbn [fst snd]. fold lin lout no.
        destruct (both_round 1 l1 l2 x (@repeat (car Rc) (c0 Rc) (no * 1)) (fun _ => 0) (fun _ => 0) (fun _ => 0%nat)) as (temp & E1 & E2 & E3 & _);
          [intros z Hz; apply HL, in_or_app; left; exact Hz|intros z Hz; apply HY, in_or_app; left; exact Hz|exact Hx|rewrite repeat_length; lia| |].
        { intros i Hi. rewrite get_repeat. change (c0 Rc) with 0. pose proof (near_exact u 0) as Q. rewrite Rabs_R0 in Q. exact Q. }
        rewrite E1. rewrite repeat_length in E2.
        destruct (ab_axpy u B HB (no * 1) a temp y) as (y1 & F1' & F2' & F3' & F4'); [lia|lia|]. rewrite F1'.
        set (T := fun i => tsum l1 l2 i (f1 x i)). set (TA := fun i => tsum l1 l2 i (f2 x i)). set (rc := fun i => row_cost t l1 l2 (lout + i)).
        assert (HT : forall i, (i < no)%nat -> near u (rc i) (get temp i) (T i) (TA i)).
        { intros i Hi. specialize (E3 i Hi). rewrite Rabs_R1, !Rmult_1_l, !Rplus_0_l, Nat.add_0_l in E3. exact E3. }
        assert (HN1 : forall i, (i < no)%nat -> near u (N i + (rc i + 2)) (get y1 i) (S i + a * T i) (AA i + Rabs a * TA i)).
        { intros i Hi. specialize (HT i Hi). pose proof (near_pos u _ _ _ _ HT) as HP.
          assert (HZ : 0 <= Rabs a * TA i) by (apply Rmult_le_pos; [apply Rabs_pos|exact HP]).
          apply (near_step u Hu) with (y := get y i); [apply HN, Hi| |].
          - apply (near_comp u Hu (rc i) 2 (get y i) (get y1 i) (a * T i) (a * get temp i) (Rabs a * TA i) (Rabs a * Rabs (get temp i))); [| | |exact HZ].
            + rewrite (Rplus_comm (get y i)), (Rplus_comm (Rabs (get y i))). apply F3'. lia.
            + pose proof (near_abs u _ _ _ _ HT). pose proof (Rabs_pos a). apply Rle_trans with (Rabs a * ((1 + u) ^ rc i * TA i)); [apply Rmult_le_compat_l; assumption|right; ring].
            + rewrite <- Rmult_minus_distr_l, Rabs_mult. destruct HT as [HT _]. apply Rle_trans with (Rabs a * (gam u (rc i) * TA i)); [apply Rmult_le_compat_l; [apply Rabs_pos|exact HT]|right; ring].
          - rewrite Rabs_mult. apply Rmult_le_compat_l; [apply Rabs_pos|apply HT]. }
        destruct (IH x y1 (fun i => S i + a * T i) (fun i => AA i + Rabs a * TA i) (fun i => (N i + (rc i + 2))%nat)) as (y' & G1 & G2 & G3 & G4);
          [intros z Hz; apply HL, in_or_app; right; exact Hz|intros z Hz; apply HY, in_or_app; right; exact Hz|exact Hx|lia|exact HN1|].
        exists y'. split; [exact G1|]. split; [lia|]. split.
        + intros i Hi. specialize (G3 i Hi). rewrite !tsum_app, row_cost_app, !Rmult_plus_distr_l. fold (T i) (TA i) (rc i). rewrite <- !Rplus_assoc. cbn [length].
          match goal with |- near _ ?n _ _ _ => match type of G3 with near _ ?n' _ _ _ => replace n with n' by lia end end. exact G3.
        + intros p Hp. rewrite G4 by exact Hp. apply F4'. lia.
    Qed.

    Lemma scale_round : forall beta (y : vec), (no <= length y)%nat ->
      exists y', r_scale B no beta y = Some y' /\ length y' = length y /\
        (forall i, (i < no)%nat -> near u 1 (get y' i) (beta * get y i) (Rabs beta * Rabs (get y i))) /\ (forall i, (no <= i)%nat -> get y' i = get y i).
    Proof.
      intros beta y Hn. unfold r_scale. destruct (R_eqb_spec beta 1) as [-> | _].
      - exists y. split; [reflexivity|]. split; [reflexivity|]. split; [|reflexivity]. intros i _. rewrite Rabs_R1, !Rmult_1_l. apply (near_mono u Hu 0 1); [lia|apply near_exact].
      - destruct (transform_ok Rc no (fun c => b_mul B c beta) y Hn) as (y' & E1 & E2 & E3). exists y'. split; [exact E1|]. split; [exact E2|]. split.
        + intros i Hi. rewrite E3. destruct (Nat.ltb_spec i no); [|lia]. pose proof (ab_mul u B HB (get y i) beta) as Q.
          rewrite Rabs_mult in Q. split; [rewrite (Rmult_comm beta), (Rmult_comm (Rabs beta)); exact Q|rewrite Rabs_mult; lra].
        + intros i Hi. rewrite E3. destruct (Nat.ltb_spec i no); [lia|reflexivity].
    Qed.

    Theorem omp_round : forall A threads alpha beta (x y : vec), rt_val A = r -> Permutation (concat (map fst threads)) L -> Permutation (concat (map snd threads)) Y ->
      (ni <= length x)%nat -> (no <= length y)%nat ->
      exists y', r_omp_vec B threads t alpha A x beta y = Some y' /\ length y' = length y /\
        (forall i, (i < no)%nat -> near u (1 + (2 * length threads + row_cost t L Y (lout + i))) (get y' i) (exact_row r M t alpha beta x y i) (abs_row r MA t alpha beta x y i)) /\
        (forall p, (no <= p)%nat -> get y' p = get y p).
    Proof.
      intros A threads alpha beta x y EA P1 P2 Hx Hy. unfold r_omp_vec. rewrite EA. fold no.
      destruct (scale_round beta y Hy) as (y1 & S1 & S2 & S3 & S4). rewrite S1.
      destruct (critical_round alpha threads x y1 (fun i => beta * get y i) (fun i => Rabs beta * Rabs (get y i)) (fun _ => 1%nat)) as (y' & E1 & E2 & E3 & E4);
        [intros z Hz; apply (Permutation_in _ P1 Hz)|intros z Hz; apply (Permutation_in _ P2 Hz)|exact Hx|lia|exact S3|].
      exists y'. split; [exact E1|]. split; [lia|]. split.
      - intros i Hi. specialize (E3 i Hi). rewrite !tsum_all, (row_cost_perm _ _ _ _ _ P1 P2) in E3 by assumption. exact E3.
      - intros p Hp. rewrite E4, S4 by exact Hp. reflexivity.
    Qed.

    Theorem seq_round : forall A alpha beta (x y : vec), rt_val A = r -> hleaves Rc A = Some (L, Y) ->
      (ni <= length x)%nat -> (no <= length y)%nat ->
      exists y', r_seq_vec B t alpha A x beta y = Some y' /\ length y' = length y /\
        (forall i, (i < no)%nat -> near u (1 + row_cost t L Y (lout + i)) (get y' i) (exact_row r M t alpha beta x y i) (abs_row r MA t alpha beta x y i)) /\
        (forall p, (no <= p)%nat -> get y' p = get y p).
    Proof.
      intros A alpha beta x y EA HA Hx Hy. unfold r_seq_vec. rewrite EA, HA. fold no lin lout.
      destruct (scale_round beta y Hy) as (y1 & S1 & S2 & S3 & S4). rewrite S1.
      destruct (both_round alpha L Y x y1 (fun i => beta * get y i) (fun i => Rabs beta * Rabs (get y i)) (fun _ => 1%nat)) as (y' & E1 & E2 & E3 & E4); [intros z Hz; exact Hz|intros z Hz; exact Hz|exact Hx|lia|exact S3|].
      exists y'. split; [exact E1|]. split; [lia|]. split.
      - intros i Hi. specialize (E3 i Hi). rewrite !tsum_all in E3 by (reflexivity || assumption). exact E3.
      - intros p Hp. rewrite E4, S4 by exact Hp. reflexivity.
    Qed.
  End Root.
End Loops.
