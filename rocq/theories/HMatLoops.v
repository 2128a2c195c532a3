(** * The loops over the leaves. *)

From Coq Require Import List Arith Bool Lia Ring Permutation.
From Verif Require Import ClusterModel ClusterSpec IOModel BlockModel BlockSpec Algebra BlasModel BlasProofs HMatModel HMatSpec HMatProofs.
Import ListNotations.

Section P.
  Variable K : Coef.
  Notation C := (car K).
  Notation "0" := (c0 K).
  Notation "1" := (c1 K).
  Notation "x + y" := (cadd K x y).
  Notation "x * y" := (cmul K x y).
  Add Ring Kring4 : (c_ring K).

  Lemma mul_dist : forall a b c : C, a * b + a * c = a * (b + c).
  Proof. intros. ring. Qed.

  Lemma add_assoc : forall a b c : C, a + (b + c) = a + b + c.
  Proof. intros. ring. Qed.

  (** *** A generic loop *)
  Section Gen.
    Variable A : Type.
    Variables (lin lout mu : nat).
    Variables (src dst isz osz : A -> nat).
    Variable run : A -> list C -> list C -> option (list C).
    Fixpoint gloop (l : list A) (x y : list C) : option (list C) :=
      match l with
      | [] => Some y
      | h :: l' =>
          match (if lin <=? src h then ptr K x ((src h - lin) * mu) else None) with
          | None => None
          | Some xp =>
              match write_at K y (dst h * mu) (lout * mu) (run h xp) with
              | Some y' => gloop l' x y'
              | None => None
              end
          end
      end.

    Definition gcov (i j : nat) (h : A) : bool := in_iv i (dst h, osz h) && in_iv j (src h, isz h).

    Variables (ni no : nat) (alpha : C) (m : nat -> nat -> C).
    Definition fits (h : A) : Prop :=
      (lin <= src h)%nat /\ (src h + isz h <= lin + ni)%nat /\ (lout <= dst h)%nat /\ (dst h + osz h <= lout + no)%nat /\
      adds K (run h) (osz h) (isz h) mu alpha 1 (fun i j => m (dst h + i) (src h + j)).

    Lemma gloop_ok : forall l x y, (1 <= mu)%nat -> (forall h, In h l -> fits h) -> (ni * mu <= length x)%nat -> (no * mu <= length y)%nat ->
      exists y', gloop l x y = Some y' /\ length y' = length y /\
        (forall i c, (i < no)%nat -> (c < mu)%nat -> get y' (i * mu + c) = get y (i * mu + c) +
           alpha * sum ni (fun j => nmul K (count (gcov (lout + i) (lin + j)) l) (m (lout + i) (lin + j) * get x (j * mu + c)))) /\
        (forall p, (no * mu <= p)%nat -> get y' p = get y p).
    Proof.
      intros l x y Hmu. revert y. induction l as [|h l IH]; intros y Hl Hx Hy.
      - exists y. cbn. repeat split; try reflexivity. intros i c _ _. rewrite (sum_0 K) by reflexivity. ring.
      - destruct (Hl h (or_introl eq_refl)) as (F1 & F2 & F3 & F4 & Hadd). cbn [gloop].
        destruct (Nat.leb_spec lin (src h)); [|lia]. unfold ptr at 1. destruct (Nat.leb_spec ((src h - lin) * mu) (length x)); [|nia].
        destruct (Hadd (skipn ((src h - lin) * mu) x) (skipn (dst h * mu - lout * mu) y)) as (w & W1 & W2 & W3 & W4);
          [rewrite skipn_length; nia|rewrite skipn_length; nia|].
        destruct (write_at_ok K y (dst h * mu) (lout * mu) (run h (skipn ((src h - lin) * mu) x)) w) as (y1 & Y1 & Y2 & Y3); try assumption; try nia.
        rewrite Y1. destruct (IH y1) as (y' & Z1 & Z2 & Z3 & Z4); [intros h' Hh'; apply Hl; right; exact Hh'|exact Hx|lia|].
        exists y'. split; [exact Z1|]. split; [lia|]. split.
        + intros i c Hi Hc. rewrite Z3 by assumption.
          assert (E : get y1 (i * mu + c) = get y (i * mu + c) +
            alpha * sum ni (fun j => if gcov (lout + i) (lin + j) h then m (lout + i) (lin + j) * get x (j * mu + c) else 0)).
          { rewrite Y3. destruct (Nat.ltb_spec (i * mu + c) (dst h * mu - lout * mu)) as [Hlt|Hge].
            - assert (lout + i < dst h)%nat by nia.
              rewrite (sum_0 K); [ring|]. intros j _. unfold gcov, in_iv. cbn [fst snd]. destruct (Nat.leb_spec (dst h) (lout + i)); [lia|]. reflexivity.
            - assert (dst h <= lout + i)%nat by nia.
              destruct (Nat.lt_ge_cases (lout + i) (dst h + osz h)) as [Hin|Hout].
              + replace (i * mu + c - (dst h * mu - lout * mu))%nat with ((lout + i - dst h) * mu + c)%nat by nia.
                rewrite W3 by lia. rewrite get_skipn. f_equal; [match goal with |- 1 * ?z = _ => replace (1 * z) with z by ring end; f_equal; nia|]. f_equal.
                rewrite (sum_ext K (isz h) _ (fun j => m (lout + i) (lin + (src h - lin + j)) * get x ((src h - lin + j) * mu + c))).
                * rewrite <- (sum_window K ni (src h - lin) (isz h) (fun j => m (lout + i) (lin + j) * get x (j * mu + c))) by lia.
                  apply sum_ext. intros j Hj. unfold gcov, in_iv. cbn [fst snd].
                  destruct (Nat.leb_spec (dst h) (lout + i)); [|lia]. destruct (Nat.ltb_spec (lout + i) (dst h + osz h)); [|lia]. cbn [andb].
                  destruct (Nat.leb_spec (src h - lin) j), (Nat.leb_spec (src h) (lin + j)); try lia; try reflexivity.
                  destruct (Nat.ltb_spec j (src h - lin + isz h)), (Nat.ltb_spec (lin + j) (src h + isz h)); try lia; reflexivity.
                * intros j Hj. rewrite get_skipn. f_equal; [f_equal; lia|f_equal; nia].
              + rewrite W4 by nia. rewrite get_skipn. rewrite (sum_0 K).
                * replace (dst h * mu - lout * mu + (i * mu + c - (dst h * mu - lout * mu)))%nat with (i * mu + c)%nat by lia. ring.
                * intros j _. unfold gcov, in_iv. cbn [fst snd]. destruct (Nat.ltb_spec (lout + i) (dst h + osz h)); [lia|]. rewrite andb_false_r. reflexivity. }
          rewrite E. rewrite <- add_assoc. f_equal. rewrite mul_dist. f_equal. rewrite <- (sum_add K). apply sum_ext. intros j _.
          unfold count. cbn [filter]. destruct (gcov (lout + i) (lin + j) h); cbn [length nmul]; [reflexivity|ring].
        + intros p Hp. rewrite Z4 by exact Hp. rewrite Y3. destruct (Nat.ltb_spec p (dst h * mu - lout * mu)); [reflexivity|].
          rewrite W4 by nia. rewrite get_skipn. f_equal. lia.
    Qed.
  End Gen.

  (** *** The two loops *)
  Lemma leaves_gloop : forall t lin lout mu run l x y,
    leaves_loop K t lin lout mu run l x y =
    gloop _ lin lout mu (fun h => c_off (in_cl K t h)) (fun h => c_off (out_cl K t h)) (run t) l x y.
  Proof.
    intros t lin lout mu run l x. induction l as [|h l IH]; intros y; [reflexivity|]. cbn [leaves_loop gloop].
    destruct (if _ <=? _ then _ else _); [|reflexivity]. destruct (write_at K y _ _ _); [apply IH|reflexivity].
  Qed.
  Lemma sym_gloop : forall t ts lin lout mu run l x y,
    sym_loop K t ts lin lout mu run l x y =
    gloop _ lin lout mu (fun h => c_off (out_cl K t h)) (fun h => c_off (in_cl K t h)) (run ts) l x y.
  Proof.
    intros t ts lin lout mu run l x. induction l as [|h l IH]; intros y; [reflexivity|]. cbn [sym_loop gloop].
    destruct (if _ <=? _ then _ else _); [|reflexivity]. destruct (write_at K y _ _ _); [apply IH|reflexivity].
  Qed.

  (** coverage with respect to the operation *)
  Definition tcov (t : trans) (i j : nat) (h : hinfo K) : bool := if is_N t then hcovers i j h else hcovers j i h.

  Section Root.
    Variables (r : hinfo K) (L Y : list (hinfo K)) (sy : symc) (M : nat -> nat -> C).
    Hypothesis H : holds_matrix r L Y sy M.
    Variables (t : trans) (mu : nat) (alpha : C) (run : trans -> hinfo K -> list C -> list C -> option (list C)).
    Hypothesis Hmu : (1 <= mu)%nat.
    Hypothesis Hc : compat K t sy.
    Hypothesis Hrun : forall t' h, wf_leaf h -> compat K t' (h_sym h) ->
      adds K (run t' h) (c_size (out_cl K t' h)) (c_size (in_cl K t' h)) mu alpha 1 (op_fun t' (leaf_entry h)).
    Let lin := c_off (in_cl K t r).
    Let lout := c_off (out_cl K t r).
    Let ni := c_size (in_cl K t r).
    Let no := c_size (out_cl K t r).

    Lemma contains_le : forall a b, contains a b = true -> (c_off a <= c_off b)%nat /\ (c_off b + c_size b <= c_off a + c_size a)%nat.
    Proof. intros a b E. unfold contains in E. apply andb_true_iff in E. destruct E as [E1 E2]. apply Nat.leb_le in E1, E2. lia. Qed.

    Lemma leaf_compat : forall h, In h L -> compat K t (h_sym h).
    Proof. intros h Hh. destruct (wf_leaves _ _ _ _ _ (hm_wf _ _ _ _ _ _ H) h Hh) as [_ [-> | ->]]; [exact I|exact Hc]. Qed.

    Lemma fits_leaves : forall h, In h L -> fits _ lin lout mu (fun h => c_off (in_cl K t h)) (fun h => c_off (out_cl K t h))
      (fun h => c_size (in_cl K t h)) (fun h => c_size (out_cl K t h)) (run t) ni no alpha (op_fun t M) h.
    Proof.
      intros h Hh. destruct (wf_in _ _ _ _ _ (hm_wf _ _ _ _ _ _ H) h Hh) as [E1 E2]. apply contains_le in E1, E2.
      unfold fits, lin, lout, ni, no. destruct (wf_leaves _ _ _ _ _ (hm_wf _ _ _ _ _ _ H) h Hh) as [Hw _].
      repeat split; try (unfold in_cl, out_cl; destruct (is_N t); lia).
      apply adds_ext with (e := op_fun t (leaf_entry h)); [|apply Hrun; [exact Hw|apply leaf_compat, Hh]].
      intros i j Hi Hj. pose proof (hm_entries _ _ _ _ _ _ H h Hh) as R. unfold out_cl, in_cl in *. destruct t; cbn [is_N op_fun] in *; rewrite R by assumption; reflexivity.
    Qed.

    Lemma fits_sym : Y <> [] -> forall h, In h Y -> fits _ lin lout mu (fun h => c_off (out_cl K t h)) (fun h => c_off (in_cl K t h))
      (fun h => c_size (out_cl K t h)) (fun h => c_size (in_cl K t h)) (run (trans_sym t (h_lsym r))) ni no alpha (op_fun t M) h.
    Proof.
      intros HY h Hh. destruct (wf_sub _ _ _ _ _ (hm_wf _ _ _ _ _ _ H) h Hh) as (HL & E1 & E2). apply contains_le in E1, E2.
      destruct (wf_lsym _ _ _ _ _ (hm_wf _ _ _ _ _ _ H) HY) as [Es Hs]. rewrite Es.
      unfold fits, lin, lout, ni, no. destruct (wf_leaves _ _ _ _ _ (hm_wf _ _ _ _ _ _ H) h HL) as [Hw Hsy].
      pose proof (hm_entries _ _ _ _ _ _ H h HL) as R. pose proof (hm_sym _ _ _ _ _ _ H h Hh) as F.
      repeat split; try (unfold in_cl, out_cl; destruct (is_N t); lia).
      apply adds_ext with (e := op_fun (trans_sym t sy) (leaf_entry h)).
      - assert (G : forall i j, (i < c_size (h_t h))%nat -> (j < c_size (h_s h))%nat -> M (c_off (h_s h) + j) (c_off (h_t h) + i) = flip sy (leaf_entry h i j)).
        { intros i j Hi Hj. rewrite R by assumption. apply F; unfold in_iv, interval; cbn [fst snd];
            fold (c_off (h_t h)) (c_size (h_t h)) (c_off (h_s h)) (c_size (h_s h)).
          - destruct (Nat.leb_spec (c_off (h_t h)) (c_off (h_t h) + i)); [|lia]. destruct (Nat.ltb_spec (c_off (h_t h) + i) (c_off (h_t h) + c_size (h_t h))); [reflexivity|lia].
          - destruct (Nat.leb_spec (c_off (h_s h)) (c_off (h_s h) + j)); [|lia]. destruct (Nat.ltb_spec (c_off (h_s h) + j) (c_off (h_s h) + c_size (h_s h))); [reflexivity|lia]. }
        intros i j Hi Hj. destruct t; unfold in_cl, out_cl, trans_sym in *; cbn [is_N op_fun] in *.
        + rewrite G by assumption. destruct sy; cbn [sym_is_S op_fun flip]; cbn in Hc; try reflexivity; try congruence; contradiction.
        + rewrite G by assumption. destruct sy; cbn [flip]; cbn in Hc; try reflexivity; tauto.
        + rewrite G by assumption. destruct sy; cbn [flip]; cbn in Hc; try congruence; try contradiction.
          * destruct Hc as [Hc'|Hc']; [congruence|]. rewrite cplx_real by exact Hc'. reflexivity.
          * rewrite cconj_invol. reflexivity.
      - assert (Hts : compat K (trans_sym t sy) (h_sym h)).
        { destruct Hsy as [-> | ->]; [exact I|]. destruct t, sy; cbn in *; try tauto; try (left; discriminate); try (split; [discriminate|tauto]); destruct Hc; auto. }
        pose proof (Hrun (trans_sym t sy) h Hw Hts) as Ha.
        replace (c_size (in_cl K t h)) with (c_size (out_cl K (trans_sym t sy) h)); [replace (c_size (out_cl K t h)) with (c_size (in_cl K (trans_sym t sy) h)); [exact Ha|]|];
          unfold out_cl, in_cl, trans_sym; destruct t, (sym_is_S sy); reflexivity.
    Qed.

    Lemma both_loops : forall L' Y' x y, incl L' L -> incl Y' Y -> (ni * mu <= length x)%nat -> (no * mu <= length y)%nat ->
      exists y', match leaves_loop K t lin lout mu run L' x y with
        | None => None
        | Some y2 => if sym_is_N (h_lsym r) then Some y2 else sym_loop K t (trans_sym t (h_lsym r)) lin lout mu run Y' x y2
        end = Some y' /\ length y' = length y /\
        (forall i c, (i < no)%nat -> (c < mu)%nat -> get y' (i * mu + c) = get y (i * mu + c) +
           alpha * sum ni (fun j => nmul K (count (tcov t (lout + i) (lin + j)) L' + count (tcov t (lin + j) (lout + i)) Y')
             (op_fun t M (lout + i) (lin + j) * get x (j * mu + c)))) /\
        (forall p, (no * mu <= p)%nat -> get y' p = get y p).
    Proof.
      intros L' Y' x y HL HY Hx Hy. rewrite leaves_gloop.
      destruct (gloop_ok _ lin lout mu (fun h => c_off (in_cl K t h)) (fun h => c_off (out_cl K t h))
        (fun h => c_size (in_cl K t h)) (fun h => c_size (out_cl K t h)) (run t) ni no alpha (op_fun t M) L' x y Hmu)
        as (y2 & Y1 & Y2 & Y3 & Y4); [intros h Hh; apply fits_leaves, HL, Hh|exact Hx|exact Hy|].
      rewrite Y1.
      assert (Ec : forall i j, gcov (hinfo K) (fun h => c_off (in_cl K t h)) (fun h => c_off (out_cl K t h))
        (fun h => c_size (in_cl K t h)) (fun h => c_size (out_cl K t h)) i j = tcov t i j \/ True) by (intros; right; exact I). clear Ec.
      assert (Ec : forall i j l, count (gcov (hinfo K) (fun h => c_off (in_cl K t h)) (fun h => c_off (out_cl K t h))
        (fun h => c_size (in_cl K t h)) (fun h => c_size (out_cl K t h)) i j) l = count (tcov t i j) l).
      { intros i j l. unfold count. f_equal. apply filter_ext. intros h. unfold gcov, tcov, hcovers, in_cl, out_cl, interval. destruct (is_N t); [reflexivity|apply andb_comm]. }
      assert (Es : forall i j l, count (gcov (hinfo K) (fun h => c_off (out_cl K t h)) (fun h => c_off (in_cl K t h))
        (fun h => c_size (out_cl K t h)) (fun h => c_size (in_cl K t h)) i j) l = count (tcov t j i) l).
      { intros i j l. unfold count. f_equal. apply filter_ext. intros h. unfold gcov, tcov, hcovers, in_cl, out_cl, interval. destruct (is_N t); [apply andb_comm|reflexivity]. }
      destruct Y' as [|h0 Y'].
      - exists y2. split; [destruct (sym_is_N (h_lsym r)); reflexivity|]. split; [exact Y2|]. split; [|exact Y4].
        intros i c Hi Hq. rewrite Y3 by assumption. do 2 f_equal. apply sum_ext. intros j _. rewrite Ec. cbn [count filter length]. rewrite Nat.add_0_r. reflexivity.
      - assert (HYn : Y <> []) by (intros E; specialize (HY h0 (or_introl eq_refl)); rewrite E in HY; destruct HY).
        destruct (wf_lsym _ _ _ _ _ (hm_wf _ _ _ _ _ _ H) HYn) as [Es1 Es2].
        replace (sym_is_N (h_lsym r)) with false by (rewrite Es1; destruct sy; try reflexivity; congruence).
        rewrite sym_gloop.
        destruct (gloop_ok _ lin lout mu (fun h => c_off (out_cl K t h)) (fun h => c_off (in_cl K t h))
          (fun h => c_size (out_cl K t h)) (fun h => c_size (in_cl K t h)) (run (trans_sym t (h_lsym r))) ni no alpha (op_fun t M) (h0 :: Y') x y2 Hmu)
          as (y' & Z1 & Z2 & Z3 & Z4); [intros h Hh; apply (fits_sym HYn), HY, Hh|exact Hx|lia|].
        exists y'. split; [exact Z1|]. split; [lia|]. split.
        + intros i c Hi Hq. rewrite Z3, Y3 by assumption. rewrite <- add_assoc. f_equal. rewrite mul_dist. f_equal. rewrite <- (sum_add K).
          apply sum_ext. intros j _. rewrite Ec, Es, nmul_add. reflexivity.
        + intros p Hp. rewrite Z4, Y4 by exact Hp. reflexivity.
    Qed.
  End Root.
End P.
