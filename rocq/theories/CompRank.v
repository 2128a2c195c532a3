(** * Rank of the adaptive cross approximations. *)

From Coq Require Import List Arith ZArith Bool Lia Ring.
From Verif Require Import Algebra BlasModel BlasProofs HMatModel HMatSpec HMatProofs HMatBuild Field DistModel DistProofs CompModel CompSpec CompProofs CompPartial.
Import ListNotations.

Section R.
  Variable F : Fld.
  Notation K := (fk F).
  Notation C := (car K).
  Notation "0" := (c0 K).
  Notation "1" := (c1 K).
  Notation "x + y" := (cadd K x y).
  Notation "x * y" := (cmul K x y).
  Notation "x - y" := (csub K x y).
  Add Ring RKring : (c_ring K).

  Definition skip (l0 l : nat) : nat := if l <? l0 then l else S l.
  Lemma sum_skip : forall k l0 (g : nat -> C), (l0 <= k)%nat -> sum (S k) g = g l0 + sum k (fun l => g (skip l0 l)).
  Proof.
    induction k as [|k IH]; intros l0 g H; [assert (l0 = 0)%nat as -> by lia; cbn; ring|].
    destruct (Nat.eq_dec l0 (S k)) as [->|Hne].
    - change (sum (S (S k)) g) with (sum (S k) g + g (S k)). rewrite (sum_ext K (S k) (fun l => g (skip (S k) l)) g); [ring|].
      intros l Hl. unfold skip. destruct (Nat.ltb_spec l (S k)); [reflexivity|lia].
    - change (sum (S (S k)) g) with (sum (S k) g + g (S k)). rewrite (IH l0) by lia. cbn [sum].
      assert (E : g (skip l0 k) = g (S k)) by (unfold skip; destruct (Nat.ltb_spec k l0); [lia|reflexivity]). rewrite E. ring.
  Qed.
  Lemma sum_nonzero : forall k (g : nat -> C), sum k g <> 0 -> exists l, (l < k)%nat /\ g l <> 0.
  Proof.
    induction k as [|k IH]; intros g H; [exfalso; apply H; reflexivity|]. destruct (ceqb_spec K (g k) 0) as [E|E].
    - destruct (IH g) as (l & Hl & Hg); [intros E'; apply H; cbn [sum]; rewrite E, E'; ring|]. exists l. split; [lia|exact Hg].
    - exists k. split; [lia|exact E].
  Qed.

  Lemma rank_zero : forall M N f, rank_at_most (K := K) 0 M N f -> forall i j, (i < M)%nat -> (j < N)%nat -> f i j = 0.
  Proof. intros M N f (P & Q & H) i j Hi Hj. rewrite (H i j Hi Hj). reflexivity. Qed.
  Lemma rank_ext : forall k M N f g, (forall i j, (i < M)%nat -> (j < N)%nat -> f i j = g i j) -> rank_at_most (K := K) k M N f -> rank_at_most (K := K) k M N g.
  Proof. intros k M N f g E (P & Q & H). exists P, Q. intros i j Hi Hj. rewrite <- E by assumption. apply H; assumption. Qed.
  Lemma rank_transpose : forall k M N f, rank_at_most (K := K) k M N f -> rank_at_most (K := K) k N M (fun i j => f j i).
  Proof. intros k M N f (P & Q & H). exists Q, P. intros i j Hi Hj. rewrite (H j i Hj Hi). apply sum_ext. intros. ring. Qed.

  (** One step of elimination with a non-zero pivot decreases the rank. *)
  Lemma rank_reduce : forall k M N f i0 j0, rank_at_most (K := K) k M N f -> (i0 < M)%nat -> (j0 < N)%nat -> f i0 j0 <> 0 ->
    (0 < k)%nat /\ rank_at_most (K := K) (k - 1) M N (fun a b => f a b - f a j0 * fdiv F (f i0 b) (f i0 j0)).
  Proof.
    intros k M N f i0 j0 (P & Q & H) Hi Hj Hp. destruct k as [|k]; [exfalso; apply Hp; rewrite (H i0 j0 Hi Hj); reflexivity|].
    split; [lia|]. replace (S k - 1)%nat with k by lia.
    set (p := f i0 j0) in *.
    destruct (sum_nonzero (S k) (fun l => P l i0 * Q l j0)) as (l0 & Hl & Hne); [rewrite <- (H i0 j0 Hi Hj); exact Hp|].
    assert (Hx : P l0 i0 <> 0) by (intros E; apply Hne; rewrite E; ring).
    set (Q' := fun l b => Q l b - Q l j0 * fdiv F (f i0 b) p).
    assert (H0 : forall b, (b < N)%nat -> sum (S k) (fun l => P l i0 * Q' l b) = 0).
    { intros b Hb. transitivity (f i0 b - p * fdiv F (f i0 b) p).
      - rewrite (H i0 b Hi Hb) at 1. unfold p at 1. rewrite (H i0 j0 Hi Hj) at 1. rewrite <- sum_mul_r, <- sum_sub. apply sum_ext. intros l _. unfold Q'. ring.
      - transitivity (f i0 b - fdiv F (f i0 b) p * p); [ring|]. rewrite fdiv_mul by exact Hp. ring. }
    exists (fun l a => P (skip l0 l) a - P l0 a * fdiv F (P (skip l0 l) i0) (P l0 i0)), (fun l b => Q' (skip l0 l) b).
    intros a b Ha Hb.
    assert (E1 : f a b - f a j0 * fdiv F (f i0 b) p = sum (S k) (fun l => P l a * Q' l b)).
    { rewrite (H a b Ha Hb), (H a j0 Ha Hj). rewrite <- sum_mul_r, <- sum_sub. apply sum_ext. intros l _. unfold Q'. ring. }
    rewrite E1. rewrite (sum_skip k l0) by lia. pose proof (H0 b Hb) as H0b. rewrite (sum_skip k l0) in H0b by lia.
    set (S1 := sum k (fun l => P (skip l0 l) i0 * Q' (skip l0 l) b)) in *.
    assert (E2 : Q' l0 b = copp K (finv F (P l0 i0) * S1)).
    { transitivity (finv F (P l0 i0) * (P l0 i0 * Q' l0 b)); [transitivity (finv F (P l0 i0) * P l0 i0 * Q' l0 b); [rewrite finv_l by exact Hx; ring|ring]|].
      assert (E3 : P l0 i0 * Q' l0 b = copp K S1) by (transitivity (P l0 i0 * Q' l0 b + S1 - S1); [ring|rewrite H0b; ring]). rewrite E3. ring. }
    rewrite E2. unfold S1. transitivity (sum k (fun l => P (skip l0 l) a * Q' (skip l0 l) b) - sum k (fun l => P l0 a * finv F (P l0 i0) * (P (skip l0 l) i0 * Q' (skip l0 l) b))).
    - rewrite sum_mul_l. ring.
    - rewrite <- sum_sub. apply sum_ext. intros l _. unfold fdiv. ring.
  Qed.
End R.

Section L.
  Variable X : Num.
  Notation F := (nfd X).
  Notation K := (fk F).
  Notation C := (car K).
  Notation "0" := (c0 K).
  Notation "1" := (c1 K).
  Notation "x + y" := (cadd K x y).
  Notation "x * y" := (cmul K x y).
  Notation "x - y" := (csub K x y).
  Notation abs := (nabs X).
  Notation lt := (nltb X).
  Add Ring LKring : (c_ring K).
  Notation rank_le := (rank_at_most (K := K)).

  Lemma nodup_snoc : forall (l : list nat) x, NoDup l -> ~ In x l -> NoDup (l ++ [x]).
  Proof.
    induction l as [|y l IH]; intros x Hn Hx; [constructor; [intros []|constructor]|]. inversion Hn; subst. cbn [app]. constructor.
    - intros H. apply in_app_or in H. destruct H as [H|[<-|[]]]; [contradiction|apply Hx; left; reflexivity].
    - apply IH; [assumption|]. intros H. apply Hx. right. exact H.
  Qed.

  (** ** Full pivoting *)
  Section Full.
    Variable over : C -> C -> bool.
    Variable tol : C.
    Hypothesis Htol : lt (abs 0) tol = true.
    (** The residual vanishes on the rows and columns of the pivots. *)
    Definition vanishes (M N q : nat) (m : mat K) (rows cols : list nat) : Prop :=
      NoDup rows /\ NoDup cols /\ length rows = q /\ length cols = q /\
      (forall i, In i rows -> (i < M)%nat /\ forall j, (j < N)%nat -> me m i j = 0) /\
      (forall j, In j cols -> (j < N)%nat /\ forall i, (i < M)%nat -> me m i j = 0).
    Lemma full_rank : forall A M N req n0 k, (0 < M + N)%nat -> forall fuel q m uu vv rows cols a,
      full_inv X M N A q m uu vv -> (q <= k)%nat -> rank_le (k - q) M N (me m) -> vanishes M N q m rows cols ->
      full_loop X over tol fuel req n0 q m uu vv = Some a ->
      (a_rank X a = (-1)%Z /\
        ((req < 0)%Z -> (1 <= k)%nat -> (k * (M + N) <= M * N)%nat -> exists m0, wf_mat m0 M N /\ (forall i j, (i < M)%nat -> (j < N)%nat -> me m0 i j = 0) /\ over (norm_frob2 X m0) n0 = true)) \/
      (exists m' rows cols, a_rank X a = Z.of_nat (length (a_uu X a)) /\ full_inv X M N A (length (a_uu X a)) m' (a_uu X a) (a_vv X a) /\
        (length (a_uu X a) <= k)%nat /\ rank_le (k - length (a_uu X a)) M N (me m') /\ vanishes M N (length (a_uu X a)) m' rows cols).
    Proof.
      intros A M N req n0 k HP. induction fuel as [|fuel IH]; intros q m uu vv rows cols a Inv Hq Hr Hv H; [discriminate|].
      pose proof Inv as (H1 & H2 & H3 & H4 & H5 & H6 & H7). destruct H1 as (E1 & E2 & E3). cbn [full_loop] in H. rewrite E1, E2 in H.
      assert (Stop : forall r, r = Z.of_nat q -> Some (mkAca X r uu vv) = Some a ->
        (exists m' rows cols, a_rank X a = Z.of_nat (length (a_uu X a)) /\ full_inv X M N A (length (a_uu X a)) m' (a_uu X a) (a_vv X a) /\
        (length (a_uu X a) <= k)%nat /\ rank_le (k - length (a_uu X a)) M N (me m') /\ vanishes M N (length (a_uu X a)) m' rows cols)).
      { intros r -> Q. injection Q as <-. cbn [a_rank a_uu a_vv]. exists m, rows, cols. rewrite H2. auto. }
      destruct ((0 <? req)%Z && (Z.of_nat q <? Z.min req (Z.min (Z.of_nat M) (Z.of_nat N)))%Z || (req <? 0)%Z && (over (norm_frob2 X m) n0 || (q =? 0))) eqn:Ec;
        [|right; exact (Stop _ eq_refl H)].
      destruct (Nat.ltb_spec (M * N) (S q * (M + N))) as [Ha|Ha].
      - left. injection H as <-. cbn [a_rank]. split; [reflexivity|]. intros Hreq Hk Hadv. assert (Eq : (k - q)%nat = O) by nia.
        exists m. split; [repeat split; assumption|]. split; [apply (rank_zero F M N); rewrite Eq in Hr; exact Hr|].
        apply orb_true_iff in Ec. destruct Ec as [Ec|Ec]; apply andb_true_iff in Ec; destruct Ec as [G1 G2]; [apply Z.ltb_lt in G1; lia|].
        apply orb_true_iff in G2. destruct G2 as [G2|G2]; [exact G2|]. apply Nat.eqb_eq in G2. lia.
      - destruct (argmax_ok X m M N) as (i & j & Ea & Hi & Hj & _); [repeat split; assumption|nia|]. rewrite Ea in H.
        destruct (lt (abs (me m i j)) tol) eqn:Et; [right; exact (Stop _ eq_refl H)|].
        assert (Hp : me m i j <> 0) by (intros E; rewrite E, Htol in Et; discriminate).
        set (u := mk M (fun a => me m a j)) in *. set (v := mk N (fun b => fdiv F (me m i b) (me m i j))) in *.
        set (m1 := of_fun K M N (fun a b => me m a b - get u a * get v b)) in *.
        assert (Em : forall a b, (a < M)%nat -> (b < N)%nat -> me m1 a b = me m a b - me m a j * fdiv F (me m i b) (me m i j)).
        { intros a' b' Ha' Hb'. unfold m1. rewrite of_fun_me by assumption. unfold u, v. rewrite !get_mk. destruct (Nat.ltb_spec a' M); [|lia]. destruct (Nat.ltb_spec b' N); [|lia]. reflexivity. }
        destruct (rank_reduce F (k - q) M N (me m) i j Hr Hi Hj Hp) as [Hpos Hr'].
        destruct Hv as (V1 & V2 & V3 & V4 & V5 & V6).
        apply (IH (S q) m1 (uu ++ [u]) (vv ++ [v]) (rows ++ [i]) (cols ++ [j]) a); [| | | |exact H].
        + apply full_step; [exact Inv|exact Ha|apply length_mk|apply length_mk].
        + lia.
        + replace (k - S q)%nat with (k - q - 1)%nat by lia. apply (rank_ext F _ _ _ _ _ (fun a b Ha' Hb' => eq_sym (Em a b Ha' Hb')) Hr').
        + split; [apply nodup_snoc; [exact V1|]; intros Hin; apply Hp; apply (proj2 (V5 i Hin)); exact Hj|].
          split; [apply nodup_snoc; [exact V2|]; intros Hin; apply Hp; apply (proj2 (V6 j Hin)); exact Hi|].
          rewrite !app_length. cbn [length]. split; [lia|]. split; [lia|]. split.
          * intros i' Hin. apply in_app_or in Hin. destruct Hin as [Hin|[<-|[]]].
            -- destruct (V5 i' Hin) as [B1 B2]. split; [exact B1|]. intros j' Hj'. rewrite Em by assumption. rewrite !B2 by assumption. ring.
            -- split; [exact Hi|]. intros j' Hj'. rewrite Em by assumption.
               transitivity (me m i j' - fdiv F (me m i j') (me m i j) * me m i j); [ring|]. rewrite fdiv_mul by exact Hp. ring.
          * intros j' Hin. apply in_app_or in Hin. destruct Hin as [Hin|[<-|[]]].
            -- destruct (V6 j' Hin) as [B1 B2]. split; [exact B1|]. intros i' Hi'. rewrite Em by assumption. rewrite !B2 by assumption. unfold fdiv. ring.
            -- split; [exact Hj|]. intros i' Hi'. rewrite Em by assumption.
               assert (E : fdiv F (me m i j) (me m i j) = 1) by (unfold fdiv; apply finv_r; exact Hp). rewrite E. ring.
    Qed.

    Lemma full_aca_rank : forall A M N req k, (0 < M + N)%nat -> rank_le k M N A -> exists r L, full_aca X over tol M N A req = Some (r, L) /\
      (r <= Z.of_nat k)%Z /\
      ((0 < r)%Z -> factors L M N (Z.to_nat r) /\ rank_le (k - Z.to_nat r) M N (error_of L A) /\
         exists rows cols, NoDup rows /\ NoDup cols /\ length rows = Z.to_nat r /\ length cols = Z.to_nat r /\ exact_on L A M N rows cols) /\
      ((req < 0)%Z -> (1 <= k)%nat -> (k * (M + N) <= M * N)%nat ->
        (forall m0, wf_mat m0 M N -> (forall i j, (i < M)%nat -> (j < N)%nat -> me m0 i j = 0) -> over (norm_frob2 X m0) (norm_frob2 X (of_fun K M N A)) = false) -> (0 <= r)%Z).
    Proof.
      intros A M N req k HP HR. destruct (full_aca_ok X over tol A M N req HP) as (r & L & E & _). exists r, L. split; [exact E|].
      unfold full_aca in E. destruct (full_loop X over tol (M * N + 2) req (norm_frob2 X (of_fun K M N A)) 0 (of_fun K M N A) [] []) as [a|] eqn:El; [|discriminate].
      injection E as <- <-.
      destruct (full_rank A M N req (norm_frob2 X (of_fun K M N A)) k HP (M * N + 2) 0 (of_fun K M N A) [] [] [] [] a) as [[Hr Hg]|(m & rows & cols & Hr & Hi & Hk & Hrk & Hv)].
      - split; [apply of_fun_wf|]. do 2 (split; [reflexivity|]). do 2 (split; [intros u []|]). split; [lia|]. intros i j Hi Hj. rewrite of_fun_me by assumption. unfold cross. cbn. ring.
      - lia.
      - rewrite Nat.sub_0_r. apply (rank_ext F k M N A); [|exact HR]. intros i j Hi Hj. rewrite of_fun_me by assumption. reflexivity.
      - split; [constructor|]. split; [constructor|]. do 2 (split; [reflexivity|]). split; intros x [].
      - exact El.
      - rewrite Hr. split; [lia|]. split; [lia|]. intros H1 H2 H3 H4. exfalso. destruct (Hg H1 H2 H3) as (m0 & W & Z0 & O). rewrite (H4 m0 W Z0) in O. discriminate.
      - rewrite Hr. split; [lia|]. split; [|lia]. intros Hpos. rewrite Nat2Z.id.
        assert (NE : a_uu X a <> []) by (destruct (a_uu X a); [cbn in Hpos; lia|discriminate]).
        destruct Hi as (I1 & I2 & I3 & I4 & I5 & I6 & I7).
        destruct (fill_ok X M N (a_uu X a) (a_vv X a)) as (G1 & G2 & G3); [exact I4|lia|exact NE|]. split; [exact G1|].
        assert (Er : forall i j, (i < M)%nat -> (j < N)%nat -> me m i j = error_of (fill_factors X M N (Z.of_nat (length (a_uu X a))) (a_uu X a) (a_vv X a)) A i j).
        { intros i j Hi Hj. unfold error_of. rewrite G3, (I7 i j) by assumption. ring. }
        split; [apply (rank_ext F _ _ _ (me m)); assumption|]. destruct Hv as (V1 & V2 & V3 & V4 & V5 & V6). exists rows, cols.
        split; [exact V1|]. split; [exact V2|]. split; [exact V3|]. split; [exact V4|]. split.
        + intros i Hin. destruct (V5 i Hin) as [B1 B2]. split; [exact B1|]. intros j Hj. rewrite G3, (I7 i j) by assumption. rewrite B2 by exact Hj. ring.
        + intros j Hin. destruct (V6 j Hin) as [B1 B2]. split; [exact B1|]. intros i Hi. rewrite G3, (I7 i j) by assumption. rewrite B2 by exact Hi. ring.
    Qed.
  End Full.

  (** ** Partial pivoting *)
  Section Partial.
    Variable over : C -> C -> bool.
    Variable tol : C.
    Variable swap : bool.
    Hypothesis Htol : lt tol (abs 0) = false.
    Variables (n1 n2 : nat) (B : nat -> nat -> C).
    Notation row := (fun i => mk n2 (fun j => B i j)).
    Notation col := (fun j => mk n1 (fun i => B i j)).
    Lemma partial_rank : forall k req fuel I J q uu vv v1 v2 aux frob a, (0 < n1 + n2)%nat ->
      length uu = q -> length vv = q -> (forall u, In u uu -> length u = n1) -> (forall v, In v vv -> length v = n2) ->
      (I = 0%nat \/ (I < n1)%nat) -> (J = 0%nat \/ (J < n2)%nat) -> (q <= k)%nat -> rank_le (k - q) n1 n2 (fun i j => B i j - cross X uu vv i j) ->
      partial_loop X over tol swap n1 n2 row col fuel req I J q uu vv v1 v2 aux frob = Some a ->
      (a_rank X a = (-1)%Z /\
        ((n1 * n2 < S k * (n1 + n2))%nat \/ (q = 0%nat /\ (abs_laws X -> forall j, (j < n2)%nat -> nth j v2 false = false -> lt tol (abs (B I j - cross X uu vv I j)) = false)))) \/
      (a_rank X a = Z.of_nat (length (a_uu X a)) /\ length (a_vv X a) = length (a_uu X a) /\ (forall u, In u (a_uu X a) -> length u = n1) /\
        (forall v, In v (a_vv X a) -> length v = n2) /\ (length (a_uu X a) <= k)%nat /\
        rank_le (k - length (a_uu X a)) n1 n2 (fun i j => B i j - cross X (a_uu X a) (a_vv X a) i j)).
    Proof.
      intros k req. induction fuel as [|fuel IH]; intros I J q uu vv v1 v2 aux frob a HP Lu Lv Hu Hv HI0 HJ0 Hq Hr H; [discriminate|].
      cbn [partial_loop] in H.
      destruct ((0 <? req)%Z && (Z.of_nat q <? Z.min req (Z.min (Z.of_nat n1) (Z.of_nat n2)))%Z || (req <? 0)%Z && ((q =? 0) || over aux frob)) eqn:Ec.
      2: { injection H as <-. right. cbn [a_rank a_uu a_vv]. rewrite Lu, Lv. auto 8. }
      destruct (Nat.ltb_spec (n1 * n2) (S q * (n1 + n2))) as [Ha|Ha].
      { injection H as <-. left. split; [reflexivity|]. left. nia. }
      assert (P1 : (0 < n1)%nat) by nia. assert (P2 : (0 < n2)%nat) by nia.
      destruct (subtract_ok X n2 I uu vv (row I)) as (r & Er & Lr & Vr); [lia|exact Hv|apply length_mk|]. rewrite Er in H.
      assert (Vr' : forall k, (k < n2)%nat -> get r k = B I k - cross X uu vv I k).
      { intros k' Hk. rewrite Vr by exact Hk. rewrite get_mk. destruct (Nat.ltb_spec k' n2); [reflexivity|lia]. }
      set (J' := search X r v2 n2 J) in *.
      assert (HJ : (J' < n2)%nat) by (destruct (search_range X r v2 n2 J) as [Q|Q]; fold J' in Q; [exact Q|]; destruct HJ0; lia).
      assert (HI : (I < n1)%nat) by (destruct HI0; lia).
      rewrite Lr in H. destruct (Nat.leb_spec n2 J'); [lia|]. destruct (lt tol (abs (get r J'))) eqn:Et.
      - destruct (subtract_ok X n1 J' vv uu (col J')) as (w & Ew & Lw & Vw); [lia|exact Hu|apply length_mk|]. rewrite Ew in H.
        assert (Vw' : forall k, (k < n1)%nat -> get w k = B k J' - cross X uu vv k J').
        { intros k' Hk. rewrite Vw by exact Hk. rewrite get_mk. destruct (Nat.ltb_spec k' n1); [|lia]. rewrite (cross_swap X uu vv) by lia. reflexivity. }
        set (f := fun i j => B i j - cross X uu vv i j) in *.
        assert (Hp : f I J' <> 0) by (unfold f; rewrite <- Vr' by exact HJ; apply (nonzero X tol Htol); exact Et).
        destruct (rank_reduce F (k - q) n1 n2 f I J' Hr HI HJ Hp) as [Hpos Hr'].
        set (c := map (fun x => x * fdiv F 1 (get r J')) w) in *.
        assert (Lc : length c = n1) by (unfold c; rewrite map_length; exact Lw).
        assert (Vc : forall i, (i < n1)%nat -> get c i = f i J' * fdiv F 1 (f I J')).
        { intros i Hi. unfold c, get. rewrite nth_indep with (d' := (fun x => x * fdiv F 1 (get r J')) 0) by (rewrite map_length; lia).
          rewrite (map_nth (fun x => x * fdiv F 1 (get r J'))). fold (get w i). rewrite Vw', Vr' by assumption. reflexivity. }
        match type of H with partial_loop _ _ _ _ _ _ _ _ _ _ ?I1 _ _ _ _ ?b1 ?b2 ?x1 ?x2 = _ =>
          destruct (IH I1 J' (S q) (uu ++ [c]) (vv ++ [r]) b1 b2 x1 x2 a HP) as [[R1 R2]|R] end.
        + rewrite app_length. cbn [length]. lia.
        + rewrite app_length. cbn [length]. lia.
        + intros u Hin. apply in_app_or in Hin. destruct Hin as [Hin|[<-|[]]]; [apply Hu; exact Hin|exact Lc].
        + intros v Hin. apply in_app_or in Hin. destruct Hin as [Hin|[<-|[]]]; [apply Hv; exact Hin|exact Lr].
        + right. destruct (search_range X c (set_true I v1) n1 I) as [Q|Q]; [exact Q|rewrite Q; exact HI].
        + right. exact HJ.
        + lia.
        + replace (k - S q)%nat with (k - q - 1)%nat by lia. eapply (rank_ext F); [|exact Hr']. intros i j Hi Hj. cbv beta. rewrite cross_app by lia.
          rewrite Vc, Vr' by assumption. fold (f I j). unfold fdiv. unfold f at 1. ring.
        + exact H.
        + left. split; [exact R1|]. destruct R2 as [R2|[R2 _]]; [left; exact R2|discriminate].
        + right. exact R.
      - injection H as <-. cbn [a_rank a_uu a_vv]. destruct (Nat.eqb_spec q 0) as [Q0|NQ].
        + left. split; [reflexivity|]. right. split; [exact Q0|]. intros AL j Hj Ej. rewrite <- Vr' by exact Hj.
          destruct (search_spec X AL r v2 n2 J) as [[_ H']|(_ & _ & H')]; [rewrite (H' j Hj) in Ej; discriminate|]. fold J' in H'.
          specialize (H' j Hj Ej). destruct (lt tol (abs (get r j))) eqn:El; [|reflexivity].
          destruct (al_cotrans X AL _ (abs (get r J')) _ El) as [G|G]; congruence.
        + right. rewrite Lu, Lv. auto 8.
    Qed.
    Lemma start_rank : forall k req a, (0 < n1 + n2)%nat -> rank_le k n1 n2 B -> partial_start X over tol swap n1 n2 row col req = Some a ->
      (a_rank X a = (-1)%Z /\ ((n1 * n2 < S k * (n1 + n2))%nat \/ (abs_laws X -> forall j, (j < n2)%nat -> lt tol (abs (B 0%nat j)) = false))) \/
      (a_rank X a = Z.of_nat (length (a_uu X a)) /\ length (a_vv X a) = length (a_uu X a) /\ (forall u, In u (a_uu X a) -> length u = n1) /\
        (forall v, In v (a_vv X a) -> length v = n2) /\ (length (a_uu X a) <= k)%nat /\
        rank_le (k - length (a_uu X a)) n1 n2 (fun i j => B i j - cross X (a_uu X a) (a_vv X a) i j)).
    Proof.
      intros k req a HP HR H. unfold partial_start in H.
      assert (N : forall n k, nth k (repeat false n) false = false) by (induction n as [|n IH]; intros [|k']; cbn; auto).
      assert (E0 : forall i j, B i j - cross X [] [] i j = B i j) by (intros i j; unfold cross; cbn; ring).
      match type of H with partial_loop _ _ _ _ _ _ _ _ ?f _ _ _ _ _ _ ?b1 ?b2 ?x1 ?x2 = _ =>
        destruct (partial_rank k req f O O O [] [] b1 b2 x1 x2 a HP eq_refl eq_refl (fun u (Hu : In u []) => match Hu with end) (fun u (Hu : In u []) => match Hu with end)
        (or_introl eq_refl) (or_introl eq_refl) (Nat.le_0_l k)) as [[R1 R2]|R] end.
      - rewrite Nat.sub_0_r. apply (rank_ext F k n1 n2 B); [|exact HR]. intros i j _ _. symmetry. apply E0.
      - exact H.
      - left. split; [exact R1|]. destruct R2 as [R2|[_ R2]]; [left; exact R2|right]. intros AL j Hj. rewrite <- E0. apply R2; [exact AL|exact Hj|apply N].
      - right. exact R.
    Qed.
  End Partial.

  Section Generators.
    Variable over : C -> C -> bool.
    Variable tol : C.
    Hypothesis Htol : lt tol (abs 0) = false.
    Notation rank_outcome := (rank_outcome (X := X) tol).
    Lemma partial_outcome_rank : forall swap M N A req k a, (0 < M + N)%nat -> rank_le k M N A ->
      partial_start X over tol swap M N (fun i => mk N (fun j => A i j)) (fun j => mk M (fun i => A i j)) req = Some a ->
      rank_outcome M N k A (a_rank X a) (fill_factors X M N (a_rank X a) (a_uu X a) (a_vv X a)) true.
    Proof.
      intros swap M N A req k a HP HR H. destruct (start_rank over tol swap Htol M N A k req a HP HR H) as [[R1 R2]|(R1 & R2 & R3 & R4 & R5 & R6)].
      - unfold rank_outcome. rewrite R1. split; [lia|]. split; [lia|]. intros _. exact R2.
      - unfold rank_outcome. rewrite R1. split; [lia|]. split; [|lia]. intros Hpos. rewrite Nat2Z.id.
        assert (NE : a_uu X a <> []) by (destruct (a_uu X a); [cbn in Hpos; lia|discriminate]).
        destruct (fill_ok X M N (a_uu X a) (a_vv X a)) as (G1 & G2 & G3); [exact R3|lia|exact NE|]. split; [exact G1|].
        eapply (rank_ext F); [|exact R6]. intros i j Hi Hj. unfold error_of. rewrite G3 by assumption. reflexivity.
    Qed.
    Lemma partial_outcome_rank_swapped : forall swap M N A req k a, (0 < M + N)%nat -> rank_le k M N A ->
      partial_start X over tol swap N M (fun j => mk M (fun i => A i j)) (fun i => mk N (fun j => A i j)) req = Some a ->
      rank_outcome M N k A (a_rank X a) (fill_factors X M N (a_rank X a) (a_vv X a) (a_uu X a)) false.
    Proof.
      intros swap M N A req k a HP HR H. destruct (start_rank over tol swap Htol N M (fun i j => A j i) k req a ltac:(lia) (rank_transpose F k M N A HR) H) as [[R1 R2]|(R1 & R2 & R3 & R4 & R5 & R6)].
      - unfold rank_outcome. rewrite R1. split; [lia|]. split; [lia|]. intros _. destruct R2 as [R2|R2]; [left; lia|right; exact R2].
      - unfold rank_outcome. rewrite R1. split; [lia|]. split; [|lia]. intros Hpos. rewrite Nat2Z.id. rewrite <- R2.
        assert (NE : a_vv X a <> []) by (destruct (a_vv X a); [cbn in R2; rewrite <- R2 in Hpos; cbn in Hpos; lia|discriminate]).
        destruct (fill_ok X M N (a_vv X a) (a_uu X a)) as (G1 & G2 & G3); [exact R4|lia|exact NE|]. split; [exact G1|]. rewrite R2.
        apply (rank_transpose F) in R6. eapply (rank_ext F); [|exact R6]. intros i j Hi Hj. cbv beta. unfold error_of. rewrite <- R2, G3 by assumption. rewrite (cross_swap X (a_uu X a)) by lia. reflexivity.
    Qed.
  End Generators.
End L.
