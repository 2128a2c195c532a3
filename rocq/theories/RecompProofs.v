(** * Proofs on the recompression. *)

From Coq Require Import List Arith ZArith Bool Lia Ring.
From Verif Require Import Algebra BlasModel BlasProofs HMatModel HMatSpec HMatProofs HMatBuild HMatTop Field DistModel DistProofs DistMat ArithModel ArithSpec ArithDense
  DenseProofs CompModel CompSpec CompProofs CompPartial CompSVD RecompModel RecompSpec.
Import ListNotations.

Section P.
  Variable X : Num.
  Notation F := (nfd X).
  Notation K := (fk F).
  Notation C := (car K).
  Notation "0" := (c0 K).
  Notation "1" := (c1 K).
  Notation "x + y" := (cadd K x y).
  Notation "x * y" := (cmul K x y).
  Notation "x - y" := (csub K x y).
  Add Ring XKringR : (c_ring K).
  Variable rsqrt : C -> C.

  (** ** Loops on buffers *)
  (** A loop of which each step sets the entries of its own region. *)
  Lemma fold_regions : forall {I : Type} (f : I -> list C -> option (list C)) (reg : I -> nat -> bool) (val : nat -> C) (n : nat) l b0,
    length b0 = n -> NoDup l ->
    (forall i i' p, In i l -> In i' l -> reg i p = true -> reg i' p = true -> i = i') ->
    (forall i b, In i l -> length b = n -> (forall p, reg i p = true -> get b p = get b0 p) ->
       exists b', f i b = Some b' /\ length b' = n /\ forall p, get b' p = if reg i p then val p else get b p) ->
    exists b, fold_opt K f l b0 = Some b /\ length b = n /\ forall p, get b p = if existsb (fun i => reg i p) l then val p else get b0 p.
  Proof.
    intros I f reg val n l b0 Hn. 
    assert (G : forall l b, NoDup l -> length b = n ->
      (forall i i' p, In i l -> In i' l -> reg i p = true -> reg i' p = true -> i = i') ->
      (forall i p, In i l -> reg i p = true -> get b p = get b0 p) ->
      (forall i b, In i l -> length b = n -> (forall p, reg i p = true -> get b p = get b0 p) ->
         exists b', f i b = Some b' /\ length b' = n /\ forall p, get b' p = if reg i p then val p else get b p) ->
      exists b', fold_opt K f l b = Some b' /\ length b' = n /\ forall p, get b' p = if existsb (fun i => reg i p) l then val p else get b p).
    { clear l. induction l as [|i l IH]; intros b ND Hb U S H.
      - exists b. cbn. auto.
      - cbn [fold_opt]. inversion ND as [|? ? ND1 ND2]. subst.
        destruct (H i b) as (b' & E1 & E2 & E3); [left; reflexivity|exact Hb|intros p Hp; apply (S i); [left; reflexivity|exact Hp]|].
        rewrite E1. destruct (IH b') as (b2 & F1 & F2 & F3).
        + exact ND2.
        + exact E2.
        + intros j j' p Hj Hj'. apply U; right; assumption.
        + intros j p Hj Hp. rewrite E3. destruct (reg i p) eqn:R.
          * exfalso. apply ND1. rewrite (U i j p); [exact Hj|left; reflexivity|right; exact Hj|exact R|exact Hp].
          * apply (S j); [right; exact Hj|exact Hp].
        + intros j bb Hj. apply H. right. exact Hj.
        + exists b2. split; [exact F1|]. split; [exact F2|]. intros p. rewrite F3, E3. cbn [existsb].
          destruct (reg i p); cbn [orb]; [destruct (existsb _ l)|]; reflexivity. }
    intros ND U H. apply G; auto.
  Qed.

  Lemma get_zeros : forall n p, get (K := K) (repeat 0 n) p = 0.
  Proof. intros n p. unfold get. apply nth_repeat. Qed.

  Lemma existsb_seq : forall n k (g : nat -> bool), (k < n)%nat -> (forall i, (i < n)%nat -> g i = (i =? k)%nat) -> existsb g (seq 0 n) = true.
  Proof. intros n k g H G. apply existsb_exists. exists k. split; [apply in_seq; lia|]. rewrite G by exact H. apply Nat.eqb_refl. Qed.

  (** ** The new factors *)
  Lemma copy_column : forall src a n (b : list C) at_, (a + n <= length src)%nat -> (at_ + n <= length b)%nat ->
    exists b', write_at K b at_ 0 (fun p => do q <- ptr K src a; copy_n K q n p) = Some b' /\ length b' = length b /\
      forall p, get b' p = if ((at_ <=? p) && (p <? at_ + n))%nat then get src (a + (p - at_))%nat else get b p.
  Proof.
    intros src a n b at_ H1 H2.
    destruct (write_at_0 K b at_ (fun p => do q <- ptr K src a; copy_n K q n p) (firstn n (skipn a src) ++ skipn n (skipn at_ b))) as (b' & E1 & E2 & E3 & E4).
    - lia.
    - unfold ptr. destruct (Nat.leb_spec a (length src)); [|lia]. unfold copy_n. rewrite !skipn_length.
      destruct (Nat.leb_spec n (length src - a)); [|lia]. destruct (Nat.leb_spec n (length b - at_)); [|lia]. reflexivity.
    - rewrite app_length, firstn_length, !skipn_length. lia.
    - exists b'. split; [exact E1|]. split; [exact E2|]. intros p. destruct (Nat.leb_spec at_ p) as [L|L]; cbn [andb].
      + replace p with (at_ + (p - at_))%nat at 1 by lia. rewrite E4. rewrite get_app, firstn_length, skipn_length, get_firstn, !get_skipn.
        replace (Nat.min n (length src - a)) with n by lia. destruct (Nat.ltb_spec (p - at_) n) as [B|B].
        * destruct (Nat.ltb_spec p (at_ + n)); [reflexivity|lia].
        * destruct (Nat.ltb_spec p (at_ + n)); [lia|]. f_equal. lia.
      + apply E3. lia.
  Qed.

  Lemma new_U_ok : forall M tr nu ldu (u s : list C), (nu <= M)%nat -> (forall r, (r < tr)%nat -> (r * ldu + nu <= length u)%nat) ->
    exists U, new_U X rsqrt M tr nu ldu u s = Some U /\ wf_mat U M tr /\
      forall i j, (i < M)%nat -> (j < tr)%nat -> me U i j = if (i <? nu)%nat then rsqrt (get s j) * get u (i + j * ldu) else 0.
  Proof.
    intros M tr nu ldu u s Hnu Hu. unfold new_U.
    destruct (fold_regions (fun r b =>
         do b1 <- write_at K b (r * M) 0 (fun p => do q <- ptr K u (r * ldu); copy_n K q nu p);
         write_at K b1 (r * M) 0 (scal K M (rsqrt (get s r))))
      (fun r p => ((r * M <=? p) && (p <? r * M + M))%nat)
      (fun p => if (p mod M <? nu)%nat then rsqrt (get s (p / M)) * get u (p mod M + p / M * ldu) else 0) (M * tr) (seq 0 tr) (repeat 0 (M * tr)))
      as (b & E1 & E2 & E3).
    - apply repeat_length.
    - apply seq_NoDup.
    - intros i i' p _ _ H1 H2. apply andb_prop in H1, H2. rewrite Nat.leb_le, Nat.ltb_lt in H1, H2. nia.
    - intros r b Hr Hb Hz. apply in_seq in Hr. assert (HM : (r * M + M <= M * tr)%nat) by nia.
      destruct (copy_column u (r * ldu) nu b (r * M)) as (b1 & A1 & A2 & A3); [apply Hu; lia|lia|]. rewrite A1.
      destruct (scal_ok K M (rsqrt (get s r)) (skipn (r * M) b1)) as (w & S1 & S2 & S3); [rewrite skipn_length; lia|].
      destruct (write_at_0 K b1 (r * M) (scal K M (rsqrt (get s r))) w) as (b2 & B1 & B2 & B3 & B4); [lia|exact S1|rewrite S2, skipn_length; reflexivity|].
      exists b2. split; [exact B1|]. split; [lia|]. intros p. destruct (Nat.leb_spec (r * M) p) as [L|L]; cbn [andb].
      + replace p with (r * M + (p - r * M))%nat at 1 by lia. rewrite B4, S3, get_skipn. replace (r * M + (p - r * M))%nat with p by lia. rewrite A3.
        destruct (Nat.leb_spec (r * M) p); [|lia]. cbn [andb]. destruct (Nat.ltb_spec p (r * M + M)) as [B|B].
        * destruct (Nat.ltb_spec (p - r * M) M); [|lia].
          assert (Em : p mod M = (p - r * M)%nat) by (replace p with ((p - r * M) + r * M)%nat at 1 by lia; apply index_mod; lia).
          assert (Ed : p / M = r) by (replace p with ((p - r * M) + r * M)%nat by lia; apply index_div; lia).
          rewrite Em, Ed. destruct (Nat.ltb_spec (p - r * M) nu); destruct (Nat.ltb_spec p (r * M + nu)); try lia.
          -- f_equal. f_equal. lia.
          -- rewrite Hz by (rewrite andb_true_iff, Nat.leb_le, Nat.ltb_lt; lia). rewrite get_zeros. ring.
        * destruct (Nat.ltb_spec (p - r * M) M); [lia|]. destruct (Nat.ltb_spec p (r * M + nu)); [lia|reflexivity].
      + rewrite B3 by lia. rewrite A3. destruct (Nat.leb_spec (r * M) p); [lia|reflexivity].
    - rewrite E1. cbn [option_map]. eexists. split; [reflexivity|]. split; [repeat split; exact E2|]. intros i j Hi Hj. unfold me. cbn [md mr mkMat].
      rewrite E3. rewrite (existsb_seq tr j).
      + rewrite index_mod, index_div by exact Hi. reflexivity.
      + exact Hj.
      + intros r Hr. destruct (Nat.eqb_spec r j) as [->|NE].
        * rewrite andb_true_iff, Nat.leb_le, Nat.ltb_lt. lia.
        * apply andb_false_iff. rewrite Nat.leb_gt, Nat.ltb_ge. nia.
  Qed.

  Lemma NoDup_app' : forall {A} (l m : list A), NoDup l -> NoDup m -> (forall x, In x l -> ~ In x m) -> NoDup (l ++ m).
  Proof.
    intros A l m Hl Hm D. induction Hl as [|a l Ha Hl IH]; cbn; [exact Hm|]. constructor.
    - rewrite in_app_iff. intros [H|H]; [auto|]. apply (D a); [left; reflexivity|exact H].
    - apply IH. intros x Hx. apply D. right. exact Hx.
  Qed.
  Lemma NoDup_prod : forall {A B} (l : list A) (m : list B), NoDup l -> NoDup m -> NoDup (list_prod l m).
  Proof.
    intros A B l m Hl Hm. induction Hl as [|a l Ha Hl IH]; cbn; [constructor|]. apply NoDup_app'; [|exact IH|].
    - apply FinFun.Injective_map_NoDup; [|exact Hm]. intros x y E. congruence.
    - intros [x y] H1 H2. apply in_map_iff in H1. destruct H1 as (z & E & _). injection E as <- <-. apply in_prod_iff in H2. apply Ha, H2.
  Qed.

  Lemma new_V_ok : forall tr N nv ldvt (vt s : list C), (nv <= N)%nat -> (tr <= ldvt)%nat -> (forall r, (r < nv)%nat -> (r * ldvt + tr <= length vt)%nat) ->
    exists V, new_V X rsqrt tr N nv ldvt vt s = Some V /\ wf_mat V tr N /\
      forall i j, (i < tr)%nat -> (j < N)%nat -> me V i j = if (j <? nv)%nat then rsqrt (get s i) * get vt (i + j * ldvt) else 0.
  Proof.
    intros tr N nv ldvt vt s Hnv Htr Hv. unfold new_V.
    destruct (fold_regions (fun r b => write_at K b (r * tr) 0 (fun p => do q <- ptr K vt (r * ldvt); copy_n K q tr p))
      (fun r p => ((r * tr <=? p) && (p <? r * tr + tr))%nat) (fun p => get vt (p mod tr + p / tr * ldvt)) (tr * N) (seq 0 nv) (repeat 0 (tr * N)))
      as (b & E1 & E2 & E3).
    - apply repeat_length.
    - apply seq_NoDup.
    - intros i i' p _ _ H1 H2. apply andb_prop in H1, H2. rewrite Nat.leb_le, Nat.ltb_lt in H1, H2. nia.
    - intros r b Hr Hb _. apply in_seq in Hr. assert (HM : (r * tr + tr <= tr * N)%nat) by nia.
      destruct (copy_column vt (r * ldvt) tr b (r * tr)) as (b1 & A1 & A2 & A3); [apply Hv; lia|lia|].
      exists b1. split; [exact A1|]. split; [lia|]. intros p. rewrite A3. destruct (Nat.leb_spec (r * tr) p) as [L|L]; cbn [andb]; [|reflexivity].
      destruct (Nat.ltb_spec p (r * tr + tr)) as [B|B]; [|reflexivity].
      assert (Em : p mod tr = (p - r * tr)%nat) by (replace p with ((p - r * tr) + r * tr)%nat at 1 by lia; apply index_mod; lia).
      assert (Ed : p / tr = r) by (replace p with ((p - r * tr) + r * tr)%nat by lia; apply index_div; lia).
      rewrite Em, Ed. f_equal. lia.
    - rewrite E1.
      destruct (fold_regions (fun rj b => set1 K (fst rj + snd rj * tr) (rsqrt (get s (fst rj)) * get b (fst rj + snd rj * tr)) b)
        (fun rj p => (p =? fst rj + snd rj * tr)%nat) (fun p => rsqrt (get s (p mod tr)) * get b p) (tr * N) (list_prod (seq 0 tr) (seq 0 nv)) b) as (b' & F1 & F2 & F3).
      + exact E2.
      + apply NoDup_prod; apply seq_NoDup.
      + intros [i j] [i' j'] p H1 H2 P1 P2. apply in_prod_iff in H1, H2. rewrite !in_seq in *. cbn [fst snd] in *. apply Nat.eqb_eq in P1, P2.
        assert (j = j') by nia. subst j'. f_equal. lia.
      + intros [i j] b' H1 Hb Hz. apply in_prod_iff in H1. rewrite !in_seq in H1. cbn [fst snd] in *.
        destruct (set1_ok K (i + j * tr) (rsqrt (get s i) * get b' (i + j * tr)) b') as (b2 & G1 & G2 & G3); [nia|].
        exists b2. split; [exact G1|]. split; [lia|]. intros p. rewrite G3. destruct (Nat.eqb_spec p (i + j * tr)) as [->|NE]; [|reflexivity].
        rewrite index_mod by lia. rewrite Hz by apply Nat.eqb_refl. reflexivity.
      + rewrite F1. cbn [option_map]. eexists. split; [reflexivity|]. split; [repeat split; exact F2|]. intros i j Hi Hj. unfold me. cbn [md mr mkMat].
        rewrite F3, E3. destruct (Nat.ltb_spec j nv) as [Hjv|Hjv].
        * rewrite (existsb_seq nv j _ Hjv); cycle 1.
          { intros r Hr. destruct (Nat.eqb_spec r j) as [->|NE].
            - rewrite andb_true_iff, Nat.leb_le, Nat.ltb_lt. lia.
            - apply andb_false_iff. rewrite Nat.leb_gt, Nat.ltb_ge. nia. }
          rewrite index_mod, index_div by exact Hi.
          replace (existsb _ (list_prod (seq 0 tr) (seq 0 nv))) with true; [reflexivity|]. symmetry. apply existsb_exists. exists (i, j).
          split; [apply in_prod_iff; rewrite !in_seq; lia|]. apply Nat.eqb_refl.
        * replace (existsb _ (list_prod (seq 0 tr) (seq 0 nv))) with false.
          -- replace (existsb _ (seq 0 nv)) with false; [apply get_zeros|]. symmetry. apply not_true_iff_false. intros H. apply existsb_exists in H.
             destruct H as (r & Hr & H). apply in_seq in Hr. rewrite andb_true_iff, Nat.leb_le, Nat.ltb_lt in H. nia.
          -- symmetry. apply not_true_iff_false. intros H. apply existsb_exists in H. destruct H as ([r c] & Hr & H). apply in_prod_iff in Hr.
             rewrite !in_seq in Hr. cbn [fst snd] in *. apply Nat.eqb_eq in H. nia.
  Qed.

  (** ** Algebra *)
  (** sum over k of p(.,k) w(k) v(k,.) *)
  Definition decomp (n : nat) (p : nat -> nat -> C) (w : nat -> C) (v : nat -> nat -> C) (i j : nat) : C := sum n (fun k => p i k * w k * v k j).

  Lemma frob2_ortho : forall M N n p v (w : nat -> C), columns_orthonormal (X := X) M n p -> rows_orthonormal (X := X) N n v -> (forall k, cconj K (w k) = w k) ->
    frob2 K M N (decomp n p w v) = sum n (fun k => w k * w k).
  Proof.
    intros M N n u v w Hu Hv Hw. unfold frob2, decomp.
    transitivity (sum M (fun i => sum N (fun j => sum n (fun k => sum n (fun l => (u i k * w k * v k j) * (cconj K (u i l) * w l * cconj K (v l j))))))).
    { apply sum_ext. intros i Hi. apply sum_ext. intros j Hj. rewrite conj_sum, <- sum_mul_r. apply sum_ext. intros k Hk. rewrite <- sum_mul_l.
      apply sum_ext. intros l Hl. rewrite !cconj_mul, Hw. reflexivity. }
    transitivity (sum n (fun k => sum n (fun l => w k * w l * (sum M (fun i => u i k * cconj K (u i l)) * sum N (fun j => v k j * cconj K (v l j)))))).
    { transitivity (sum M (fun i => sum n (fun k => sum n (fun l => sum N (fun j => (u i k * w k * v k j) * (cconj K (u i l) * w l * cconj K (v l j))))))).
      - apply sum_ext. intros i Hi. rewrite sum_swap. apply sum_ext. intros k Hk. rewrite sum_swap. reflexivity.
      - rewrite sum_swap. apply sum_ext. intros k Hk. rewrite sum_swap. apply sum_ext. intros l Hl. rewrite <- sum_mul_r, <- sum_mul_l. apply sum_ext.
        intros i Hi. rewrite <- !sum_mul_l. apply sum_ext. intros j Hj. ring. }
    apply sum_ext. intros k Hk. rewrite (sum_single K n k).
    - rewrite Hu, Hv by assumption. rewrite Nat.eqb_refl. ring.
    - exact Hk.
    - intros l Hl NE. rewrite Hu by assumption. destruct (Nat.eqb_spec k l); [lia|]. ring.
  Qed.

  (** Keeping the first q terms of an orthonormal decomposition. *)
  Lemma keep_terms : forall M N n q p v (s : nat -> C) (A : nat -> nat -> C) (L : lrm K), columns_orthonormal (X := X) M n p -> rows_orthonormal (X := X) N n v ->
    (forall k, cconj K (s k) = s k) -> (q <= n)%nat ->
    (forall i j, (i < M)%nat -> (j < N)%nat -> A i j = decomp n p s v i j) ->
    (forall i j, (i < M)%nat -> (j < N)%nat -> lr_entry L i j = decomp q p s v i j) ->
    frob2 K M N (error_of L A) = sum (n - q) (fun k => s (q + k)%nat * s (q + k)%nat) /\ frob2 K M N A = sum n (fun k => s k * s k) /\
    (q = n -> forall i j, (i < M)%nat -> (j < N)%nat -> lr_entry L i j = A i j).
  Proof.
    intros M N n q p v s A L Hp Hv Hs Hq EA EL. split; [|split].
    - set (w := fun k => if (k <? q)%nat then 0 else s k).
      rewrite (frob2_ext X M N (error_of L A) (decomp n p w v)).
      + rewrite (frob2_ortho M N n p v w Hp Hv) by (intros k; unfold w; destruct (k <? q)%nat; [apply conj_0|apply Hs]).
        replace n with (q + (n - q))%nat at 1 by lia. rewrite sum_split. rewrite (sum_0 K q).
        * transitivity (sum (n - q) (fun i => w (q + i)%nat * w (q + i)%nat)); [ring|]. apply sum_ext. intros k Hk. unfold w.
          destruct (Nat.ltb_spec (q + k) q); [lia|reflexivity].
        * intros k Hk. unfold w. destruct (Nat.ltb_spec k q); [ring|lia].
      + intros i j Hi Hj. unfold error_of. rewrite EA, EL by assumption. unfold decomp. replace n with (q + (n - q))%nat by lia. rewrite !sum_split.
        rewrite (sum_0 K q (fun k => p i k * w k * v k j)) by (intros k Hk; unfold w; destruct (Nat.ltb_spec k q); [ring|lia]).
        rewrite (sum_ext K (n - q) (fun k => p i (q + k)%nat * w (q + k)%nat * v (q + k)%nat j) (fun k => p i (q + k)%nat * s (q + k)%nat * v (q + k)%nat j)); [ring|].
        intros k Hk. unfold w. destruct (Nat.ltb_spec (q + k) q); [lia|reflexivity].
    - rewrite (frob2_ext X M N A (decomp n p s v) EA). apply frob2_ortho; assumption.
    - intros -> i j Hi Hj. rewrite EA, EL by assumption. reflexivity.
  Qed.

  (** The product of orthonormal families. *)
  Lemma ortho_columns : forall M n (q u : nat -> nat -> C), columns_orthonormal (X := X) M n q -> columns_orthonormal (X := X) n n u ->
    columns_orthonormal (X := X) M n (fun i k => sum n (fun p => q i p * u p k)).
  Proof.
    intros M n q u Hq Hu k l Hk Hl.
    transitivity (sum n (fun a => sum n (fun b => u a k * cconj K (u b l) * sum M (fun i => q i a * cconj K (q i b))))).
    - transitivity (sum M (fun i => sum n (fun a => sum n (fun b => u a k * cconj K (u b l) * (q i a * cconj K (q i b)))))).
      + apply sum_ext. intros i Hi. rewrite conj_sum, <- sum_mul_r. apply sum_ext. intros a Ha. rewrite <- sum_mul_l. apply sum_ext. intros b Hb. rewrite cconj_mul. ring.
      + rewrite sum_swap. apply sum_ext. intros a Ha. rewrite sum_swap. apply sum_ext. intros b Hb. rewrite sum_mul_l. reflexivity.
    - rewrite <- Hu by assumption. apply sum_ext. intros a Ha. rewrite (sum_single K n a).
      + rewrite Hq by assumption. rewrite Nat.eqb_refl. ring.
      + exact Ha.
      + intros b Hb NE. rewrite Hq by assumption. destruct (Nat.eqb_spec a b); [lia|ring].
  Qed.
  Lemma ortho_rows : forall N n (q v : nat -> nat -> C), rows_orthonormal (X := X) N n q -> rows_orthonormal (X := X) n n v ->
    rows_orthonormal (X := X) N n (fun k j => sum n (fun p => v k p * q p j)).
  Proof.
    intros N n q v Hq Hv k l Hk Hl.
    transitivity (sum n (fun a => sum n (fun b => v k a * cconj K (v l b) * sum N (fun i => q a i * cconj K (q b i))))).
    - transitivity (sum N (fun i => sum n (fun a => sum n (fun b => v k a * cconj K (v l b) * (q a i * cconj K (q b i)))))).
      + apply sum_ext. intros i Hi. rewrite conj_sum, <- sum_mul_r. apply sum_ext. intros a Ha. rewrite <- sum_mul_l. apply sum_ext. intros b Hb. rewrite cconj_mul. ring.
      + rewrite sum_swap. apply sum_ext. intros a Ha. rewrite sum_swap. apply sum_ext. intros b Hb. rewrite sum_mul_l. reflexivity.
    - rewrite <- Hv by assumption. apply sum_ext. intros a Ha. rewrite (sum_single K n a).
      + rewrite Hq by assumption. rewrite Nat.eqb_refl. ring.
      + exact Ha.
      + intros b Hb NE. rewrite Hq by assumption. destruct (Nat.eqb_spec a b); [lia|ring].
  Qed.

  Variable small : C -> C -> bool.
  Notation tail2 := (tail2 X).
  (** What the truncation guarantees about the result L' for the M x N matrix A: s are the singular values of A. *)
  Definition outcome (A : nat -> nat -> C) (M N n : nat) (L' : lrm K) : Prop :=
    wf_lrm L' M N /\ (1 <= lrank L' <= n)%nat /\
    exists (s : list C) (p v : nat -> nat -> C), length s = n /\ (forall k, cconj K (get s k) = get s k) /\
      (forall k, (k < n)%nat -> rsqrt (get s k) * rsqrt (get s k) = get s k) /\
      columns_orthonormal (X := X) M n p /\ rows_orthonormal (X := X) N n v /\
      (forall i j, (i < M)%nat -> (j < N)%nat -> A i j = decomp n p (get s) v i j) /\
      (forall i j, (i < M)%nat -> (j < N)%nat -> lr_entry L' i j = decomp (lrank L') p (get s) v i j) /\
      (lrank L' = n \/ small (tail2 s (lrank L')) (frob2 K M N A) = true) /\
      (lrank L' = 1%nat \/ small (tail2 s (lrank L' - 1)) (frob2 K M N A) = false) /\
      frob2 K M N (error_of L' A) = sum (n - lrank L') (fun k => get s (lrank L' + k) * get s (lrank L' + k)) /\
      frob2 K M N A = sum n (fun k => get s k * get s k) /\
      (lrank L' = n -> forall i j, (i < M)%nat -> (j < N)%nat -> lr_entry L' i j = A i j).

  Lemma svd_outcome : forall gesvd A M N, (1 <= M)%nat -> (1 <= N)%nat -> wf_mat A M N -> svd_documented gesvd rsqrt M N (me A) ->
    exists tr U V, svd_truncation X small (sv_s X (gesvd A)) = Some tr /\
      new_U X rsqrt M tr M M (md (sv_u X (gesvd A))) (sv_s X (gesvd A)) = Some U /\
      new_V X rsqrt tr N N N (md (sv_vt X (gesvd A))) (sv_s X (gesvd A)) = Some V /\
      outcome (me A) M N (Nat.min M N) (mkLrm U V).
  Proof.
    intros gesvd A M N HM HN WA D. destruct (D A WA ltac:(reflexivity)) as ((U1 & U2 & U3) & (V1 & V2 & V3) & S & Sq). clear D.
    set (d := gesvd A) in *. set (s := sv_s X d) in *. pose proof (sd_len _ _ _ _ _ _ _ S) as Ls. fold s in Ls.
    destruct (truncation_ok X small s ltac:(lia)) as (tr & T1 & T2 & T3 & T4).
    destruct (new_U_ok M tr M M (md (sv_u X d)) s) as (U & A1 & A2 & A3); [lia|intros r Hr; rewrite U3; nia|].
    destruct (new_V_ok tr N N N (md (sv_vt X d)) s) as (V & B1 & B2 & B3); [lia|lia|intros r Hr; rewrite V3; nia|].
    exists tr, U, V. split; [exact T1|]. split; [exact A1|]. split; [exact B1|].
    assert (RK : lrank (mkLrm U V) = tr) by apply A2.
    assert (OU : columns_orthonormal (X := X) M (Nat.min M N) (me (sv_u X d))) by (intros k l Hk Hl; apply (sd_u _ _ _ _ _ _ _ S); lia).
    assert (OV : rows_orthonormal (X := X) N (Nat.min M N) (me (sv_vt X d))) by (intros k l Hk Hl; apply (sd_vt _ _ _ _ _ _ _ S); lia).
    assert (EL : forall i j, (i < M)%nat -> (j < N)%nat -> lr_entry (mkLrm U V) i j = decomp tr (me (sv_u X d)) (get s) (me (sv_vt X d)) i j).
    { intros i j Hi Hj. unfold lr_entry. rewrite RK. cbn [lU lV]. apply sum_ext. intros k Hk. rewrite A3, B3 by assumption.
      destruct (Nat.ltb_spec i M); [|lia]. destruct (Nat.ltb_spec j N); [|lia]. unfold me. rewrite U1, V1.
      transitivity (get (md (sv_u X d)) (i + k * M) * (rsqrt (get s k) * rsqrt (get s k)) * get (md (sv_vt X d)) (k + j * N)); [ring|]. unfold s at 1 2. rewrite Sq by lia. reflexivity. }
    destruct (keep_terms M N (Nat.min M N) tr _ _ (get s) (me A) (mkLrm U V) OU OV (sd_real _ _ _ _ _ _ _ S) ltac:(lia) (sd_val _ _ _ _ _ _ _ S) EL) as (E1 & E2 & E3).
    split; [split; rewrite RK; assumption|]. rewrite RK. split; [lia|]. exists s, (me (sv_u X d)), (me (sv_vt X d)). split; [exact Ls|]. split; [exact (sd_real _ _ _ _ _ _ _ S)|].
    split; [exact Sq|]. split; [exact OU|]. split; [exact OV|]. split; [exact (sd_val _ _ _ _ _ _ _ S)|]. split; [exact EL|].
    rewrite <- Ls in E2. rewrite E2 at 1 2. rewrite <- Ls. split; [exact T3|]. split; [exact T4|]. rewrite Ls. split; [exact E1|]. split; [rewrite E2, Ls; reflexivity|]. exact E3.
  Qed.

  Lemma outcome_ext : forall A B M N n L, (forall i j, (i < M)%nat -> (j < N)%nat -> A i j = B i j) -> outcome A M N n L -> outcome B M N n L.
  Proof.
    intros A B M N n L E (H1 & H2 & s & p & v & S1 & S2 & SQ & SP & SV & SA & SL & S3 & S4 & S5 & S6 & S7). split; [exact H1|]. split; [exact H2|]. exists s, p, v.
    rewrite (frob2_ext X M N A B E) in S3, S4, S6. rewrite (frob2_ext X M N (error_of L A) (error_of L B)) in S5 by (intros; unfold error_of; rewrite E by assumption; reflexivity).
    do 5 (split; [assumption|]). split; [intros i j Hi Hj; rewrite <- E by assumption; apply SA; assumption|]. do 5 (split; [assumption|]). intros Q i j Hi Hj. rewrite S7 by assumption. apply E; assumption.
  Qed.

  Lemma sum_pad : forall (n m : nat) (f : nat -> C), (n <= m)%nat -> (forall k, (n <= k < m)%nat -> f k = 0) -> sum m f = sum n f.
  Proof.
    intros n m f H Z. replace m with (n + (m - n))%nat by lia. rewrite sum_split, (sum_0 K (m - n)); [ring|]. intros k Hk. apply Z. lia.
  Qed.

  Variable geqrf gelqf : nat -> nat -> list C -> nat -> list C * list C.
  Variable gesvd : mat K -> svd3 X.

  Lemma recompression_ok : forall L M N, (1 <= M)%nat -> (1 <= N)%nat -> wf_lrm L M N -> (1 <= lrank L)%nat ->
    lapack_documented geqrf gelqf gesvd rsqrt L M N ->
    exists L', recompression X geqrf gelqf gesvd rsqrt small L = Some L' /\ outcome (lr_entry L) M N (Nat.min (lrank L) (Nat.min M N)) L'.
  Proof.
    intros L M N HM HN [WU WV] HR Doc. unfold recompression, lapack_documented in *. pose proof WU as (U1 & U2 & U3). pose proof WV as (V1 & V2 & V3).
    rewrite U1, V2, V1, U2. set (n := lrank L) in *. destruct (Nat.ltb_spec (Nat.min M N) n) as [Hn|Hn].
    - destruct (gemm_mat_ok K TrN TrN 1 (lU L) (lV L) 1 (zeros K M N) M n N (me (lU L)) (me (lV L)) HM HR HN) as (UV & E1 & E2 & E3).
      { split; [exact WU|reflexivity]. } { split; [exact WV|reflexivity]. } { apply zeros_wf. }
      assert (EE : forall i j, (i < M)%nat -> (j < N)%nat -> me UV i j = lr_entry L i j).
      { intros i j Hi Hj. rewrite E3 by assumption. unfold lr_entry. fold n. rewrite zeros_me. ring. }
      assert (Doc' : svd_documented gesvd rsqrt M N (me UV)) by (intros B WB EB; apply Doc; [exact WB|intros; rewrite EB by assumption; apply EE; assumption]).
      rewrite E1. destruct (svd_outcome gesvd UV M N HM HN E2 Doc') as (tr & U & V & S1 & S2 & S3 & S4). destruct (Doc UV E2 EE) as ((Q1 & Q2 & _) & (Q3 & Q4 & _) & _).
      rewrite S1, Q1, Q3, Q4. rewrite S2, S3. eexists. split; [reflexivity|]. replace (Nat.min n (Nat.min M N)) with (Nat.min M N) by lia.
      apply (outcome_ext (me UV)); [exact EE|exact S4].
    - destruct Doc as (DQ & DL & DS). unfold qr_documented, lq_documented in DQ, DL.
      destruct (geqrf M n (md (lU L)) M) as [qa tq] eqn:EQ. destruct (gelqf n N (md (lV L)) n) as [la tl] eqn:EL. cbn [fst] in DS.
      destruct DQ as (QA & QT & QO & QV). destruct DL as (LA & LT & LO & LV).
      replace (Nat.min M n) with n in * by lia. replace (Nat.min n N) with n in * by lia. replace (Nat.min n (Nat.min M N)) with n by lia.
      set (q1 := qr_q X M n qa M tq) in *. set (q2 := lq_q X N n la n tl) in *.
      set (R := fun i j => if (i <=? j)%nat then get qa (i + j * M) else 0) in *. set (Lo := fun i j => if (j <=? i)%nat then get la (i + j * n) else 0) in *.
      destruct (gemm_mat_ok K TrN TrN 1 (of_fun K n n R) (of_fun K n n Lo) 0 (zeros K n n) n n n R Lo HR HR HR) as (RL & E1 & E2 & E3).
      { split; [apply of_fun_wf|]. intros i j Hi Hj. cbn. apply of_fun_me; assumption. } { split; [apply of_fun_wf|]. intros i j Hi Hj. cbn. apply of_fun_me; assumption. }
      { apply zeros_wf. }
      rewrite E1. assert (EE : forall i j, (i < n)%nat -> (j < n)%nat -> me RL i j = sum n (fun k => R i k * Lo k j)) by (intros i j Hi Hj; rewrite E3 by assumption; ring).
      destruct (DS RL E2 EE) as ((A1 & A2 & A3) & (B1 & B2 & B3) & S & Sq). set (d := gesvd RL) in *. set (s := sv_s X d) in *.
      pose proof (sd_len _ _ _ _ _ _ _ S) as Ls. fold s in Ls. rewrite Nat.min_id in Ls, Sq.
      destruct (truncation_ok X small s ltac:(lia)) as (tr & T1 & T2 & T3 & T4). rewrite T1.
      destruct (new_U_ok M tr n n (md (sv_u X d)) s) as (U' & F1 & F2 & F3); [lia|intros r Hr; rewrite A3; nia|].
      destruct (new_V_ok tr N n n (md (sv_vt X d)) s) as (V' & G1 & G2 & G3); [lia|lia|intros r Hr; rewrite B3; nia|].
      rewrite F1, G1. destruct F2 as (F2a & F2b & F2c). destruct G2 as (G2a & G2b & G2c). rewrite F2a, F2b, G2a, G2b, QT, LT.
      unfold mqr_LN, mlq_RN, legal_ld, holds. rewrite F2c, G2c, QA, LA, QT, LT.
      replace (n <=? M)%nat with true by (symmetry; apply Nat.leb_le; lia). replace (1 <=? M)%nat with true by (symmetry; apply Nat.leb_le; lia).
      replace (n <=? N)%nat with true by (symmetry; apply Nat.leb_le; lia). replace (1 <=? n)%nat with true by (symmetry; apply Nat.leb_le; lia).
      replace (1 <=? tr)%nat with true by (symmetry; apply Nat.leb_le; lia). rewrite !Nat.leb_refl. cbn [andb negb].
      replace (M =? 0)%nat with false by (symmetry; apply Nat.eqb_neq; lia). replace (N =? 0)%nat with false by (symmetry; apply Nat.eqb_neq; lia).
      replace (n =? 0)%nat with false by (symmetry; apply Nat.eqb_neq; lia). replace (tr =? 0)%nat with false by (symmetry; apply Nat.eqb_neq; lia). cbn [orb].
      replace ((n - 1) * M + M <=? M * n)%nat with true by (symmetry; apply Nat.leb_le; nia).
      replace ((tr - 1) * M + M <=? M * tr)%nat with true by (symmetry; apply Nat.leb_le; nia).
      replace ((N - 1) * n + n <=? n * N)%nat with true by (symmetry; apply Nat.leb_le; nia).
      replace ((N - 1) * tr + tr <=? tr * N)%nat with true by (symmetry; apply Nat.leb_le; nia). cbn [andb].
      set (bu := update_mat K M tr (md U') M _). set (bv := update_mat K tr N (md V') tr _).
      destruct (update_mat_ok K M tr (md U') M (fun i j => sum M (fun l => q1 i l * get (md U') (l + j * M)))) as (P1 & P2); [lia|lia|left; rewrite F2c; nia|].
      destruct (update_mat_ok K tr N (md V') tr (fun i j => sum N (fun l => get (md V') (i + l * tr) * q2 l j))) as (R1 & R2); [lia|lia|left; rewrite G2c; nia|].
      change (update_mat K M tr (md U') M _) with bu in P1, P2. change (update_mat K tr N (md V') tr _) with bv in R1, R2.
      eexists. split; [reflexivity|]. set (L' := mkLrm (with_data K U' bu) (with_data K V' bv)).
      assert (RK : lrank L' = tr) by exact F2b.
      set (pu := fun i k => sum n (fun p => q1 i p * me (sv_u X d) p k)). set (pv := fun k j => sum n (fun p => me (sv_vt X d) k p * q2 p j)).
      assert (OU : columns_orthonormal (X := X) M n pu).
      { apply ortho_columns.
        - intros k l Hk Hl. apply QO; lia.
        - intros k l Hk Hl. apply (sd_u _ _ _ _ _ _ _ S); assumption. }
      assert (OV : rows_orthonormal (X := X) N n pv).
      { apply ortho_rows.
        - intros k l Hk Hl. apply LO; lia.
        - intros k l Hk Hl. apply (sd_vt _ _ _ _ _ _ _ S); assumption. }
      assert (EU : forall i k, (i < M)%nat -> (k < tr)%nat -> me (with_data K U' bu) i k = rsqrt (get s k) * pu i k).
      { intros i k Hi Hk. unfold me at 1, with_data. cbn [md mr]. rewrite F2a, P2 by exact Hi. destruct (Nat.ltb_spec i M); [|lia]. destruct (Nat.ltb_spec k tr); [|lia]. cbn [andb].
        rewrite (sum_pad n M); [|lia|]; cycle 1.
        { intros l Hl. replace (get (md U') (l + k * M)) with (me U' l k) by (unfold me; rewrite F2a; reflexivity). rewrite F3 by lia. destruct (Nat.ltb_spec l n); [lia|ring]. }
        unfold pu. rewrite <- sum_mul_l. apply sum_ext. intros l Hl. replace (get (md U') (l + k * M)) with (me U' l k) by (unfold me; rewrite F2a; reflexivity).
        rewrite F3 by lia. destruct (Nat.ltb_spec l n); [|lia]. unfold me. rewrite A1. ring. }
      assert (EV : forall k j, (k < tr)%nat -> (j < N)%nat -> me (with_data K V' bv) k j = rsqrt (get s k) * pv k j).
      { intros k j Hk Hj. unfold me at 1, with_data. cbn [md mr]. rewrite G2a, R2 by exact Hk. destruct (Nat.ltb_spec k tr); [|lia]. destruct (Nat.ltb_spec j N); [|lia]. cbn [andb].
        rewrite (sum_pad n N); [|lia|]; cycle 1.
        { intros l Hl. replace (get (md V') (k + l * tr)) with (me V' k l) by (unfold me; rewrite G2a; reflexivity). rewrite G3 by lia. destruct (Nat.ltb_spec l n); [lia|ring]. }
        unfold pv. rewrite <- sum_mul_l. apply sum_ext. intros l Hl. replace (get (md V') (k + l * tr)) with (me V' k l) by (unfold me; rewrite G2a; reflexivity).
        rewrite G3 by lia. destruct (Nat.ltb_spec l n); [|lia]. unfold me. rewrite B1. ring. }
      assert (EL' : forall i j, (i < M)%nat -> (j < N)%nat -> lr_entry L' i j = decomp tr pu (get s) pv i j).
      { intros i j Hi Hj. unfold lr_entry. rewrite RK. cbn [lU lV L']. apply sum_ext. intros k Hk. rewrite EU, EV by assumption.
        transitivity (pu i k * (rsqrt (get s k) * rsqrt (get s k)) * pv k j); [ring|]. unfold s at 1 2. rewrite Sq by lia. reflexivity. }
      assert (EA : forall i j, (i < M)%nat -> (j < N)%nat -> lr_entry L i j = decomp n pu (get s) pv i j).
      { intros i j Hi Hj. unfold lr_entry. fold n.
        transitivity (sum n (fun p => sum n (fun r => q1 i p * me RL p r * q2 r j))).
        - transitivity (sum n (fun k => sum n (fun p => sum n (fun r => q1 i p * R p k * (Lo k r * q2 r j))))).
          + apply sum_ext. intros k Hk. rewrite QV, LV by assumption.
            rewrite (sum_pad n M); [|lia|intros p Hp; destruct (Nat.leb_spec p k); [lia|ring]].
            rewrite (sum_pad n N); [|lia|intros p Hp; destruct (Nat.leb_spec p k); [lia|ring]].
            rewrite <- sum_mul_r. apply sum_ext. intros p Hp. rewrite <- sum_mul_l. reflexivity.
          + rewrite sum_swap. apply sum_ext. intros p Hp. rewrite sum_swap. apply sum_ext. intros r Hr. rewrite E3 by assumption.
            transitivity (q1 i p * sum n (fun k => R p k * Lo k r) * q2 r j); [|ring]. rewrite <- sum_mul_l, <- sum_mul_r. apply sum_ext. intros k Hk. ring.
        - transitivity (sum n (fun p => sum n (fun r => sum n (fun k => (q1 i p * me (sv_u X d) p k) * get s k * (me (sv_vt X d) k r * q2 r j))))).
          + apply sum_ext. intros p Hp. apply sum_ext. intros r Hr. rewrite (sd_val _ _ _ _ _ _ _ S) by assumption. rewrite Nat.min_id.
            rewrite <- sum_mul_l, <- sum_mul_r. apply sum_ext. intros k Hk. fold s. ring.
          + unfold decomp, pu, pv. transitivity (sum n (fun p => sum n (fun k => sum n (fun r => q1 i p * me (sv_u X d) p k * get s k * (me (sv_vt X d) k r * q2 r j))))).
            * apply sum_ext. intros p Hp. apply sum_swap.
            * rewrite sum_swap. apply sum_ext. intros k Hk. rewrite <- !sum_mul_r. apply sum_ext. intros p Hp. rewrite <- sum_mul_l. reflexivity. }
      destruct (keep_terms M N n tr pu pv (get s) (lr_entry L) L' OU OV (sd_real _ _ _ _ _ _ _ S) ltac:(lia) EA EL') as (K1 & K2 & K3).
      split; [split; rewrite RK; repeat split; cbn; try assumption|].
      { rewrite P1. exact F2c. } { rewrite R1. exact G2c. }
      rewrite RK. split; [lia|]. exists s, pu, pv. split; [exact Ls|]. split; [exact (sd_real _ _ _ _ _ _ _ S)|].
      split; [exact Sq|]. split; [exact OU|]. split; [exact OV|]. split; [exact EA|]. split; [exact EL'|].
      rewrite <- Ls in K2. rewrite K2 at 1 2. split; [rewrite <- Ls at 1; exact T3|]. split; [exact T4|]. split; [exact K1|]. split; [rewrite <- Ls; exact K2|exact K3].
  Qed.

  Lemma truncated_svd_ok : forall A M N, (1 <= M)%nat -> (1 <= N)%nat -> wf_mat A M N -> svd_documented gesvd rsqrt M N (me A) ->
    exists L', truncated_svd X gesvd rsqrt small A = Some L' /\ outcome (me A) M N (Nat.min M N) L'.
  Proof.
    intros A M N HM HN WA D. unfold truncated_svd. destruct (svd_outcome gesvd A M N HM HN WA D) as (tr & U & V & S1 & S2 & S3 & S4).
    destruct (D A WA ltac:(reflexivity)) as ((Q1 & Q2 & _) & (Q3 & Q4 & _) & _). destruct WA as (W1 & W2 & _). rewrite S1, W1, W2, Q1, Q2, Q3, Q4, S2, S3. eexists. split; [reflexivity|exact S4].
  Qed.
End P.
