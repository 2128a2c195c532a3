(** * Proofs on the compression of blocks. *)

From Coq Require Import List Arith ZArith Bool Lia Ring.
From Verif Require Import Algebra BlasModel BlasProofs HMatModel HMatSpec HMatProofs HMatBuild Field DistModel DistProofs CompModel CompSpec.
Import ListNotations.

Section P.
  Variable X : Num.
  Notation F := (nfd X).
  Notation K := (fk F).
  Notation C := (car K).
  Notation "0" := (c0 K).
  Notation "1" := (c1 K).
  Notation "x + y" := (cadd K x y).
  Notation "x * y" := (cmul K x y).
  Notation "x - y" := (csub K x y).
  Notation abs := (nabs X).
  Notation lt := (nltb X).
  Add Ring XKring : (c_ring K).

  (** Sum of the crosses. *)
  Definition cross (uu vv : list (list C)) (i j : nat) : C := sum (length uu) (fun k => get (nth k uu []) i * get (nth k vv []) j).

  Lemma cross_app : forall uu vv u v i j, length uu = length vv -> cross (uu ++ [u]) (vv ++ [v]) i j = cross uu vv i j + get u i * get v j.
  Proof.
    intros uu vv u v i j E. unfold cross. rewrite app_length. cbn [length]. rewrite Nat.add_1_r. cbn [sum]. f_equal.
    - apply sum_ext. intros k Hk. rewrite !app_nth1 by lia. reflexivity.
    - rewrite (app_nth2 uu), (app_nth2 vv) by lia. rewrite <- E, Nat.sub_diag. reflexivity.
  Qed.
  Lemma cross_swap : forall uu vv i j, length uu = length vv -> cross uu vv i j = cross vv uu j i.
  Proof. intros uu vv i j E. unfold cross. rewrite E. apply sum_ext. intros. ring. Qed.

  Lemma get_concat : forall M (l : list (list C)) k i, (forall u, In u l -> length u = M) -> (i < M)%nat -> (k < length l)%nat ->
    get (concat l) (i + k * M) = get (nth k l []) i.
  Proof.
    induction l as [|u l IH]; intros k i H Hi Hk; cbn [length] in Hk; [lia|]. cbn [concat].
    assert (Lu : length u = M) by (apply H; left; reflexivity). unfold get. destruct k as [|k].
    - rewrite Nat.mul_0_l, Nat.add_0_r. rewrite app_nth1 by lia. reflexivity.
    - rewrite app_nth2 by lia. replace (i + S k * M - length u)%nat with (i + k * M)%nat by lia. cbn [nth].
      apply IH; [intros w Hw; apply H; right; exact Hw|exact Hi|lia].
  Qed.
  Lemma length_concat_eq : forall M (l : list (list C)), (forall u, In u l -> length u = M) -> length (concat l) = (M * length l)%nat.
  Proof.
    induction l as [|u l IH]; intros H; cbn; [lia|]. rewrite app_length, IH, (H u); [lia|left; reflexivity|].
    intros w Hw. apply H. right. exact Hw.
  Qed.

  Lemma fill_ok : forall M N uu vv, (forall u, In u uu -> length u = M) -> length uu = length vv -> uu <> [] ->
    let L := fill_factors X M N (Z.of_nat (length uu)) uu vv in
    factors L M N (length uu) /\ lrank L = length uu /\
    (forall i j, (i < M)%nat -> (j < N)%nat -> lr_entry L i j = cross uu vv i j).
  Proof.
    intros M N uu vv Hu E NE L. unfold L, fill_factors.
    destruct (Z.ltb_spec 0 (Z.of_nat (length uu))) as [H|H]; [|destruct uu; [congruence|cbn in H; lia]].
    rewrite Nat2Z.id, firstn_all. split; [|split; [reflexivity|]].
    - split; [|apply of_fun_wf]. split; [reflexivity|]. split; [reflexivity|]. cbn. apply length_concat_eq, Hu.
    - intros i j Hi Hj. unfold lr_entry, cross, lrank. cbn [lU mc]. apply sum_ext. intros k Hk. f_equal.
      + unfold me. cbn [lU md mr]. apply get_concat; assumption.
      + cbn [lV]. apply of_fun_me; assumption.
  Qed.
  Lemma fill_gave_up : forall M N r uu vv, (r <= 0)%Z -> fill_factors X M N r uu vv = empty_lrm X.
  Proof. intros M N r uu vv H. unfold fill_factors. destruct (Z.ltb_spec 0 r); [lia|reflexivity]. Qed.

  (** ** Full pivoting *)
  Section Full.
    Variable over : C -> C -> bool.
    Variable tol : C.

    (** The block is the sum of the crosses and of the residual. *)
    Definition full_inv (M N : nat) (A : nat -> nat -> C) (q : nat) (m : mat K) (uu vv : list (list C)) : Prop :=
      wf_mat m M N /\ length uu = q /\ length vv = q /\ (forall u, In u uu -> length u = M) /\ (forall v, In v vv -> length v = N) /\
      (q * (M + N) <= M * N)%nat /\
      forall i j, (i < M)%nat -> (j < N)%nat -> A i j = cross uu vv i j + me m i j.

    Lemma full_step : forall M N A q m uu vv u v, full_inv M N A q m uu vv -> (S q * (M + N) <= M * N)%nat ->
      length u = M -> length v = N ->
      full_inv M N A (S q) (of_fun K M N (fun a b => me m a b - get u a * get v b)) (uu ++ [u]) (vv ++ [v]).
    Proof.
      intros M N A q m uu vv u v (H1 & H2 & H3 & H4 & H5 & H6 & H7) Hq Lu Lv. unfold full_inv.
      split; [apply of_fun_wf|]. rewrite !app_length. cbn [length]. split; [lia|]. split; [lia|].
      split; [intros w Hw; apply in_app_or in Hw; destruct Hw as [Hw|[<-|[]]]; auto|].
      split; [intros w Hw; apply in_app_or in Hw; destruct Hw as [Hw|[<-|[]]]; auto|]. split; [exact Hq|].
      intros i j Hi Hj. rewrite cross_app by lia. rewrite of_fun_me by assumption. rewrite (H7 i j Hi Hj). ring.
    Qed.

    Lemma max_element_lt : forall l, (0 < length l)%nat -> (max_element X l < length l)%nat.
    Proof.
      intros l Hl. unfold max_element.
      assert (G : forall js b, (b < length l)%nat -> (forall j, In j js -> j < length l)%nat ->
        (fold_left (fun b i => if lt (abs (get l b)) (abs (get l i)) then i else b) js b < length l)%nat).
      { induction js as [|j js IH]; intros b Hb H; cbn; [exact Hb|]. apply IH; [|intros k Hk; apply H; right; exact Hk].
        destruct (lt _ _); [apply H; left; reflexivity|exact Hb]. }
      apply G; [exact Hl|]. intros j Hj. apply in_seq in Hj. lia.
    Qed.
    Lemma max_element_max : abs_laws X -> forall l i, (i < length l)%nat -> lt (abs (get l (max_element X l))) (abs (get l i)) = false.
    Proof.
      intros AL l i Hi. unfold max_element.
      assert (G : forall js b (seen : list nat), (forall k, In k seen -> lt (abs (get l b)) (abs (get l k)) = false) ->
        forall k, In k (seen ++ js) ->
        lt (abs (get l (fold_left (fun b i => if lt (abs (get l b)) (abs (get l i)) then i else b) js b))) (abs (get l k)) = false).
      { induction js as [|j js IH]; intros b seen H k Hk; cbn.
        - rewrite app_nil_r in Hk. apply H, Hk.
        - apply IH with (seen := seen ++ [j]); [|rewrite <- app_assoc; exact Hk]. intros k' Hk'.
          destruct (lt (abs (get l b)) (abs (get l j))) eqn:E.
          + destruct (lt (abs (get l j)) (abs (get l k'))) eqn:E2; [|reflexivity]. apply in_app_or in Hk'. destruct Hk' as [Hk'|[<-|[]]].
            * destruct (al_cotrans X AL _ (abs (get l b)) _ E2) as [E3|E3]; [rewrite (al_asym X AL _ _ E) in E3; discriminate|].
              rewrite (H k' Hk') in E3. discriminate.
            * pose proof (al_asym X AL _ _ E2). congruence.
          + apply in_app_or in Hk'. destruct Hk' as [Hk'|[<-|[]]]; [apply H, Hk'|exact E]. }
      apply G with (seen := [0%nat]).
      - intros k [<-|[]]. destruct (lt _ _) eqn:E; [pose proof (al_asym X AL _ _ E); congruence|reflexivity].
      - cbn. destruct i as [|i]; [left; reflexivity|right]. apply in_seq. lia.
    Qed.

    Lemma argmax_ok : forall m M N, wf_mat m M N -> (0 < M * N)%nat -> exists i j, argmax X m = Some (i, j) /\ (i < M)%nat /\ (j < N)%nat /\
      (abs_laws X -> forall a b, (a < M)%nat -> (b < N)%nat -> lt (abs (me m i j)) (abs (me m a b)) = false).
    Proof.
      intros m M N (H1 & H2 & H3) HP. unfold argmax. rewrite H3. destruct (Nat.eqb_spec (M * N) 0); [lia|].
      set (p := max_element X (md m)). assert (Hp : (p < M * N)%nat) by (rewrite <- H3; apply max_element_lt; lia).
      exists (p mod mr m)%nat, (p / mr m)%nat. rewrite H1. assert (M <> 0)%nat by lia.
      pose proof (Nat.div_mod p M H) as D. assert (p mod M < M)%nat by (apply Nat.mod_upper_bound; lia).
      assert (p / M < N)%nat by (apply Nat.div_lt_upper_bound; lia).
      split; [reflexivity|]. split; [assumption|]. split; [assumption|]. intros AL a b Ha Hb.
      unfold me. rewrite H1. replace (p mod M + p / M * M)%nat with p by lia. unfold p. apply (max_element_max AL). rewrite H3. nia.
    Qed.

    (** How the loop can end with a rank other than -1. *)
    Definition full_end (M N : nat) (req : Z) (n0 : C) (q : nat) (m : mat K) : Prop :=
      (req = 0)%Z \/
      (0 < req /\ Z.of_nat q = Z.min req (Z.min (Z.of_nat M) (Z.of_nat N)))%Z \/
      (req < 0 /\ (0 < q)%nat /\ over (norm_frob2 X m) n0 = false)%Z \/
      (abs_laws X -> forall i j, (i < M)%nat -> (j < N)%nat -> lt (abs (me m i j)) tol = true).

    Lemma full_loop_ok : forall A M N req n0, (0 < M + N)%nat -> forall fuel q m uu vv, full_inv M N A q m uu vv ->
      (M * N + 2 <= q + fuel)%nat -> (q = 0%nat \/ req < 0 \/ Z.of_nat q <= Z.min req (Z.min (Z.of_nat M) (Z.of_nat N)))%Z ->
      exists a, full_loop X over tol fuel req n0 q m uu vv = Some a /\
        (a_rank X a = (-1)%Z \/
         exists m', a_rank X a = Z.of_nat (length (a_uu X a)) /\ full_inv M N A (length (a_uu X a)) m' (a_uu X a) (a_vv X a) /\
           full_end M N req n0 (length (a_uu X a)) m').
    Proof.
      intros A M N req n0 HP. induction fuel as [|fuel IH]; intros q m uu vv Inv Hf Hq.
      { destruct Inv as (_ & _ & _ & _ & _ & H6 & _). nia. }
      pose proof Inv as (H1 & H2 & H3 & H4 & H5 & H6 & H7). destruct H1 as (E1 & E2 & E3). cbn [full_loop]. rewrite E1, E2.
      destruct ((0 <? req)%Z && (Z.of_nat q <? Z.min req (Z.min (Z.of_nat M) (Z.of_nat N)))%Z || (req <? 0)%Z && (over (norm_frob2 X m) n0 || (q =? 0))) eqn:Ec.
      - destruct (Nat.ltb_spec (M * N) (S q * (M + N))) as [Ha|Ha].
        + eexists. split; [reflexivity|]. left. reflexivity.
        + destruct (argmax_ok m M N) as (i & j & -> & Hi & Hj & Hmax); [repeat split; assumption|nia|].
          destruct (lt (abs (me m i j)) tol) eqn:Et.
          * eexists. split; [reflexivity|]. right. exists m. cbn [a_rank a_uu a_vv]. rewrite H2. split; [reflexivity|]. split; [exact Inv|].
            right. right. right. intros AL a b Ha' Hb. destruct (lt (abs (me m a b)) tol) eqn:E; [reflexivity|].
            destruct (al_cotrans X AL _ (abs (me m a b)) _ Et) as [G|G]; [rewrite (Hmax AL a b Ha' Hb) in G; discriminate|congruence].
          * apply IH.
            -- apply full_step; [exact Inv|exact Ha|apply length_mk|apply length_mk].
            -- lia.
            -- right. apply orb_true_iff in Ec. destruct Ec as [Ec|Ec]; apply andb_true_iff in Ec; destruct Ec as [G1 G2].
               ++ right. apply Z.ltb_lt in G2. lia.
               ++ left. apply Z.ltb_lt in G1. exact G1.
      - eexists. split; [reflexivity|]. right. exists m. cbn [a_rank a_uu a_vv]. rewrite H2. split; [reflexivity|]. split; [exact Inv|].
        apply orb_false_iff in Ec. destruct Ec as [G1 G2]. destruct (Z.compare_spec req 0) as [R|R|R].
        + left. exact R.
        + right. right. left. destruct (Z.ltb_spec req 0); [|lia]. cbn in G2. apply orb_false_iff in G2. destruct G2 as [G2 G3].
          apply Nat.eqb_neq in G3. split; [exact R|]. split; [lia|exact G2].
        + right. left. split; [exact R|]. destruct (Z.ltb_spec 0 req); [|lia]. cbn in G1. apply Z.ltb_ge in G1.
          destruct Hq as [->|[Hq|Hq]]; lia.
    Qed.

    Lemma full_aca_ok : forall A M N req, (0 < M + N)%nat -> exists r L, full_aca X over tol M N A req = Some (r, L) /\
      ((r <= 0)%Z /\ L = empty_lrm X \/
       exists q m, r = Z.of_nat q /\ (0 < q)%nat /\ factors L M N q /\ lrank L = q /\ (q * (M + N) <= M * N)%nat /\
         (forall i j, (i < M)%nat -> (j < N)%nat -> me m i j = error_of L A i j) /\ wf_mat m M N /\
         full_end M N req (norm_frob2 X (of_fun K M N A)) q m).
    Proof.
      intros A M N req HP. unfold full_aca.
      destruct (full_loop_ok A M N req (norm_frob2 X (of_fun K M N A)) HP (M * N + 2) 0 (of_fun K M N A) [] []) as (a & -> & Ha).
      - split; [apply of_fun_wf|]. do 2 (split; [reflexivity|]). do 2 (split; [intros u []|]). split; [lia|]. intros i j Hi Hj. rewrite of_fun_me by assumption. unfold cross. cbn. ring.
      - lia.
      - left. reflexivity.
      - eexists _, _. split; [reflexivity|]. destruct Ha as [->|(m & E & Inv & Hend)].
        + left. split; [lia|]. apply fill_gave_up. lia.
        + rewrite E. destruct (a_uu X a) as [|u uu] eqn:Eu.
          * left. cbn. split; [lia|reflexivity].
          * right. rewrite <- Eu in *. assert (NE : a_uu X a <> []) by (rewrite Eu; discriminate).
            destruct Inv as (I1 & I2 & I3 & I4 & I5 & I6 & I7). exists (length (a_uu X a)), m.
            destruct (fill_ok M N (a_uu X a) (a_vv X a)) as (G1 & G2 & G3); [exact I4|lia|exact NE|].
            split; [reflexivity|]. split; [rewrite Eu; cbn; lia|]. split; [exact G1|]. split; [exact G2|]. split; [exact I6|].
            split; [|split; [exact I1|exact Hend]]. intros i j Hi Hj. unfold error_of. rewrite G3, (I7 i j) by assumption. ring.
    Qed.
  End Full.
End P.
