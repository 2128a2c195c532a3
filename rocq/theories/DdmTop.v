(** * Products with overlap, right-hand sides and solutions of the domain decomposition solver. *)

From Coq Require Import List Arith Bool Lia Ring Permutation.
From Verif Require Import ClusterModel ClusterSpec IOModel BlockModel Algebra BlasModel BlasProofs HMatModel HMatProofs HMatTop DistModel DistSpec DistProofs DistVec DistMat DdmModel DdmSpec DdmProofs.
Import ListNotations.

Section D.
  Variable K : Coef.
  Notation C := (car K).
  Notation buf := (list C).
  Notation "0" := (c0 K).
  Notation "1" := (c1 K).
  Notation "x + y" := (cadd K x y).
  Notation "x * y" := (cmul K x y).
  Add Ring Krng : (c_ring K).
  Variable S : ddm K.
  Notation D := (dd_op S).
  Notation T := (d_t K D).
  Notation P := (world K D).
  Notation NR := (pa_n (d_t K D)).
  Notation dof := (dof K S).
  Notation ui := (user_index (d_perm K D) T).
  Variable l2g : nat -> nat -> nat.
  Hypothesis HT : partition_ok T P.
  Hypothesis HO : overlapping S l2g.

  Lemma fill_range_ok : forall lo hi (b : buf), (lo <= hi)%nat -> (hi <= length b)%nat ->
    exists b', fill_range K lo hi b = Some b' /\ length b' = length b /\ forall p, get b' p = if (lo <=? p)%nat && (p <? hi)%nat then 0 else get b p.
  Proof.
    intros lo hi b H1 H2. unfold fill_range. destruct (fill0_ok K (hi - lo) (skipn lo b)) as (w & E & [L W] & Z); [rewrite skipn_length; lia|].
    rewrite skipn_length in L. destruct (write_at_0 K b lo (fill0 K (hi - lo)) w) as (b' & E1 & E2 & E3 & E4); [lia|exact E|exact L|].
    exists b'. split; [exact E1|]. split; [exact E2|]. intros p. destruct (Nat.leb_spec lo p) as [Hp|Hp]; [|apply E3; exact Hp].
    cbn [andb]. replace p with (lo + (p - lo))%nat at 1 by lia. rewrite E4. destruct (Nat.ltb_spec p hi).
    - apply Z. lia.
    - rewrite W by lia. rewrite get_skipn. f_equal. lia.
  Qed.

  Lemma cols_inj : forall n i c i' c', (i < n -> i' < n -> i + c * n = i' + c' * n -> i = i' /\ c = c')%nat.
  Proof.
    intros n i c i' c' H1 H2 E. assert (c = c').
    { destruct (Nat.lt_trichotomy c c') as [H|[H|H]]; [|exact H|]; exfalso; nia. }
    subst. split; lia.
  Qed.

  Variable A : nat -> nat -> C.
  Hypothesis Hd : d_s K D = T.
  Hypothesis HS : partition_ok (d_s K D) P.

  (** ** GMV *)
  Lemma conj_herm_no : forall n (b : buf), d_sym K D <> SyH -> conj_herm K S n b = Some b.
  Proof. intros n b H. unfold conj_herm. destruct (d_sym K D); cbn; congruence. Qed.

  Lemma gmv_ok : forall arrival mu ins outs buffers works X,
    (if (mu =? 1)%nat then row_blocks D A run_vec 1 else row_blocks D A (run_mat mu) mu) ->
    (mu = 1%nat \/ d_sym K D <> SyH) -> all_arrive S arrival ->
    inside_restrictions S l2g ins mu X -> local_sizes S mu outs -> work_sizes S mu buffers works ->
    exists ys, gmv K S arrival mu ins outs buffers works = Some ys /\ restrictions S l2g ys mu (fun a c => mul NR A (fun b => X b c) a) /\
      forall r, (r < P)%nat -> only_first (dof r * mu) (at_rank K outs r) (at_rank K ys r).
  Proof.
    intros arrival mu ins outs buffers works X HB Hsym Ha Hin Hout Hw. unfold gmv.
    destruct (Nat.eqb_spec mu 1) as [->|Hmu].
    - destruct (int_vec_l2l_ok K D A HT HS HB ins outs works (fun b => X b 0%nat)) as (os & -> & Lo & Ho).
      { intros r o s Hr E. rewrite Hd in *. destruct (Hin r o s Hr E) as [L V]. pose proof (ov_size K S l2g HO r o s E). split; [nia|].
        intros i Hi. specialize (V i 0%nat Hi ltac:(lia)). rewrite Nat.mul_0_l, Nat.add_0_r in V. rewrite V. rewrite (ov_inside K S l2g HO r o s i E Hi). reflexivity. }
      { intros r o s Hr E. pose proof (ov_size K S l2g HO r o s E). specialize (Hout r Hr). lia. }
      { intros r Hr. rewrite Hd. destruct (Hw r Hr) as [H _]. cbn in H. lia. }
      destruct (on_ranks_ok buf [] P (fun r => do s <- part_size T r; fill_range K s (dof r) (at_rank K os r))
        (fun r b => only_first (dof r * 1) (at_rank K outs r) b /\ forall o s i c, nth_error (pa_parts T) r = Some (o, s) -> (i < dof r)%nat -> (c < 1)%nat ->
           get b (i + c * dof r) = if (i <? s)%nat then mul NR A (fun b => X b c) (l2g r i) else 0)) as (zs & -> & Lz & Hz).
      { intros r Hr. destruct (part_nth T P HT r Hr) as (o & s & E & _). destruct (part_size_ok T r o s E) as [-> _].
        pose proof (ov_size K S l2g HO r o s E) as Hs. specialize (Hout r Hr). destruct (Ho r o s Hr E) as [[L1 F1] [L2 V2]].
        destruct (fill_range_ok s (dof r) (at_rank K os r) Hs ltac:(lia)) as (b & E1 & E2 & E3). exists b. split; [exact E1|]. split.
        - split; [lia|]. intros p Hp. rewrite E3. destruct (Nat.ltb_spec p (dof r)); [lia|]. rewrite andb_false_r. apply F1. lia.
        - intros o' s' i c E' Hi Hc. rewrite E in E'. injection E' as <- <-. replace c with 0%nat by lia. rewrite Nat.mul_0_l, Nat.add_0_r, E3.
          destruct (Nat.ltb_spec i s) as [His|His].
          + destruct (Nat.leb_spec s i); [lia|]. cbn [andb]. rewrite (V2 i His). rewrite Hd, (ov_inside K S l2g HO r o s i E His). reflexivity.
          + destruct (Nat.leb_spec s i); [|lia]. destruct (Nat.ltb_spec i (dof r)); [|lia]. reflexivity. }
      destruct (exchange_ok K S l2g HT HO arrival 1 zs (fun a c => mul NR A (fun b => X b c) a) Ha) as (ys & E1 & E2 & E3).
      { intros r Hr. destruct (Hz r Hr) as [[L _] _]. specialize (Hout r Hr). unfold at_rank in *. lia. }
      { intros r o s i c Hr E Hi Hc. exact (proj2 (Hz r Hr) o s i c E Hi Hc). }
      exists ys. split; [exact E1|]. split; [exact E2|]. intros r Hr. apply (only_first_trans K _ _ (at_rank K zs r)); [exact (proj1 (Hz r Hr))|exact (E3 r Hr)].
    - destruct Hsym as [Hsym|Hsym]; [contradiction|].
      destruct (on_ranks_ok buf [] P (fun r =>
          do s <- part_size T r;
          do b <- fold_opt K (fun i b => fold_opt K (fun j b' => mov K (at_rank K ins r) (i * dof r + j) (i + j * mu) b') (seq 0 s) b)
                    (seq 0 mu) (at_rank K buffers r);
          conj_herm K S (s * mu) b)
        (fun r b => forall o s, nth_error (pa_parts T) r = Some (o, s) -> (s * mu + s * mu <= length b)%nat /\ holds_rows b s mu (fun i c => X (ui (o + i)%nat) c))) as (bufs & -> & Lb & Hb).
      { intros r Hr. destruct (part_nth T P HT r Hr) as (o & s & E & _). destruct (part_size_ok T r o s E) as [-> _].
        pose proof (ov_size K S l2g HO r o s E) as Hs. destruct (Hw r Hr) as [_ Hw2]. specialize (Hw2 o s E). destruct (Nat.eqb_spec mu 1); [contradiction|].
        destruct (Hin r o s Hr E) as [Li Vi].
        destruct (transpose_ok K (fun i j b' => mov K (at_rank K ins r) (i * dof r + j) (i + j * mu) b') (fun i j => (i + j * mu)%nat) (fun i j => X (ui (o + j)%nat) i) mu s (at_rank K buffers r)) as (b & E1 & E2 & E3 & E4).
        - intros i j i' j' H1 H2 H3 H4 E'. destruct (cols_inj mu i j i' j' H1 H3 E') as [-> ->]. split; reflexivity.
        - intros i j b Hi Hj Lb _. assert (j * mu + mu <= s * mu)%nat by nia. assert (i * dof r + dof r <= dof r * mu)%nat by nia.
          destruct (mov_ok K (at_rank K ins r) (i * dof r + j) (i + j * mu) b) as (b' & F1 & F2 & F3); [lia|lia|].
          exists b'. split; [exact F1|]. split; [lia|]. intros q. rewrite F3. destruct (Nat.eqb_spec q (i + j * mu)); [|reflexivity].
          rewrite (Nat.add_comm (i * dof r)), (Vi j i Hj Hi), (ov_inside K S l2g HO r o s j E Hj). reflexivity.
        - rewrite E1, conj_herm_no by exact Hsym. exists b. split; [reflexivity|]. intros o' s' E'. rewrite E in E'. injection E' as <- <-. split; [lia|].
          split; [lia|]. intros i c Hi Hc. rewrite (Nat.add_comm (i * mu)). apply (E3 c i Hc Hi). }
      destruct (on_ranks_ok buf [] P (fun r => do s <- part_size T r; ptr K (at_rank K bufs r) (s * mu))
        (fun r b => forall o s, nth_error (pa_parts T) r = Some (o, s) -> (s * mu <= length b)%nat)) as (ob & -> & Lob & Hob).
      { intros r Hr. destruct (part_nth T P HT r Hr) as (o & s & E & _). destruct (part_size_ok T r o s E) as [-> _].
        destruct (Hb r Hr o s E) as [L _]. fold (at_rank K bufs r) in L. unfold ptr. destruct (Nat.leb_spec (s * mu) (length (at_rank K bufs r))); [|lia].
        eexists. split; [reflexivity|]. intros o' s' E'. rewrite E in E'. injection E' as <- <-. rewrite skipn_length. lia. }
      destruct (int_mat_l2l_ok K D A HT HS mu HB bufs ob works X) as (os & -> & Lo & Ho).
      { intros r o s Hr E. rewrite Hd in *. exact (proj2 (Hb r Hr o s E)). }
      { intros r o s Hr E. exact (Hob r Hr o s E). }
      { intros r Hr. rewrite Hd. destruct (Hw r Hr) as [H _]. destruct (Nat.eqb_spec mu 1); [contradiction|]. nia. }
      destruct (on_ranks_ok buf [] P (fun r =>
          do s <- part_size T r;
          do row <- conj_herm K S (s * mu) (at_rank K os r);
          fold_opt K (fun i o =>
            do o' <- fold_opt K (fun j o' => mov K row (i + j * mu) (i * dof r + j) o') (seq 0 s) o;
            fill_range K (s + i * dof r) ((i + 1) * dof r) o') (seq 0 mu) (at_rank K outs r))
        (fun r b => only_first (dof r * mu) (at_rank K outs r) b /\ forall o s i c, nth_error (pa_parts T) r = Some (o, s) -> (i < dof r)%nat -> (c < mu)%nat ->
           get b (i + c * dof r) = if (i <? s)%nat then mul NR A (fun b => X b c) (l2g r i) else 0)) as (zs & -> & Lz & Hz).
      { intros r Hr. destruct (part_nth T P HT r Hr) as (o & s & E & _). destruct (part_size_ok T r o s E) as [-> _]. rewrite conj_herm_no by exact Hsym.
        pose proof (ov_size K S l2g HO r o s E) as Hs. specialize (Hout r Hr). destruct (Ho r o s Hr E) as [_ [L2 V2]]. rewrite Hd in V2.
        set (val := fun q => let i := (q mod dof r)%nat in if (i <? s)%nat then mul NR A (fun b => X b (q / dof r)%nat) (l2g r i) else 0).
        destruct (loop_ok K nat (fun i o =>
            do o' <- fold_opt K (fun j o' => mov K (at_rank K os r) (i + j * mu) (i * dof r + j) o') (seq 0 s) o;
            fill_range K (s + i * dof r) ((i + 1) * dof r) o') (fun i q => ((i * dof r <=? q) && (q <? (i + 1) * dof r))%nat) val (seq 0 mu) (at_rank K outs r)) as (b & E1 & E2 & E3 & E4).
        { intros c b Hc Lb0 _. apply in_seq in Hc. assert (Hcd : (c * dof r + dof r <= dof r * mu)%nat) by nia.
          destruct (loop_ok K nat (fun j o' => mov K (at_rank K os r) (c + j * mu) (c * dof r + j) o') (fun j q => (q =? c * dof r + j)%nat) val (seq 0 s) b) as (b1 & F1 & F2 & F3 & F4).
          { intros j b' Hj Lb' _. apply in_seq in Hj. assert (j * mu + mu <= s * mu)%nat by nia.
            destruct (mov_ok K (at_rank K os r) (c + j * mu) (c * dof r + j) b') as (b2 & G1 & G2 & G3); [lia|lia|].
            exists b2. split; [exact G1|]. split; [lia|]. intros q. rewrite G3. destruct (Nat.eqb_spec q (c * dof r + j)) as [->|]; [|reflexivity].
            unfold val. rewrite (Nat.add_comm (c * dof r)), Nat.mod_add, Nat.div_add, Nat.mod_small, Nat.div_small by lia. cbn [Nat.add]. cbv zeta.
            destruct (Nat.ltb_spec j s); [|lia]. rewrite (Nat.add_comm c), (V2 j c) by lia. rewrite (ov_inside K S l2g HO r o s j E ltac:(lia)). reflexivity. }
          rewrite F1. destruct (fill_range_ok (s + c * dof r) ((c + 1) * dof r) b1) as (b2 & G1 & G2 & G3); [nia|nia|].
          exists b2. split; [exact G1|]. split; [lia|]. intros q. rewrite G3.
          destruct (Nat.leb_spec (c * dof r) q) as [H1|H1]; destruct (Nat.ltb_spec q ((c + 1) * dof r)) as [H2|H2]; cbn [andb]; rewrite ?andb_true_r, ?andb_false_r.
          - destruct (Nat.leb_spec (s + c * dof r) q) as [H3|H3].
            + unfold val. assert (Em : (q mod dof r = q - c * dof r)%nat).
              { rewrite <- (Nat.mod_small (q - c * dof r) (dof r)) by lia. rewrite <- (Nat.mod_add (q - c * dof r) c (dof r)) by lia. f_equal. lia. }
              rewrite Em. cbv zeta. destruct (Nat.ltb_spec (q - c * dof r) s); [lia|reflexivity].
            + apply (F3 (q - c * dof r)%nat); [apply in_seq; lia|apply Nat.eqb_eq; lia].
          - apply F4. intros j Hj. apply in_seq in Hj. apply Nat.eqb_neq. nia.
          - destruct (Nat.leb_spec (s + c * dof r) q) as [H3|H3]; [lia|]. apply F4. intros j Hj. apply in_seq in Hj. apply Nat.eqb_neq. lia.
          - lia. }
        exists b. split; [exact E1|]. split.
        - split; [exact E2|]. intros q Hq. apply E4. intros c Hc. apply in_seq in Hc. apply andb_false_iff. right. apply Nat.ltb_ge. nia.
        - intros o' s' i c E' Hi Hc. rewrite E in E'. injection E' as <- <-. rewrite (E3 c (i + c * dof r)%nat).
          + unfold val. rewrite Nat.mod_add, Nat.div_add, Nat.mod_small, Nat.div_small by lia. reflexivity.
          + apply in_seq. lia.
          + apply andb_true_iff. split; [apply Nat.leb_le|apply Nat.ltb_lt]; nia. }
      destruct (exchange_ok K S l2g HT HO arrival mu zs (fun a c => mul NR A (fun b => X b c) a) Ha) as (ys & E1 & E2 & E3).
      { intros r Hr. destruct (Hz r Hr) as [[L _] _]. specialize (Hout r Hr). unfold at_rank in *. lia. }
      { intros r o s i c Hr E Hi Hc. exact (proj2 (Hz r Hr) o s i c E Hi Hc). }
      exists ys. split; [exact E1|]. split; [exact E2|]. intros r Hr. apply (only_first_trans K _ _ (at_rank K zs r)); [exact (proj1 (Hz r Hr))|exact (E3 r Hr)].
  Qed.

  (** ** Right-hand sides *)
  Lemma scale_unity_ok : forall r mu o s (b : buf), nth_error (pa_parts T) r = Some (o, s) -> (dof r * mu <= length b)%nat ->
    exists b', scale_unity K S r mu b = Some b' /\ length b' = length b /\
      (forall i c, (i < dof r)%nat -> (c < mu)%nat -> get b' (i + c * dof r) = if (i <? s)%nat then get b (i + c * dof r) else 0) /\
      (forall p, (dof r * mu <= p)%nat -> get b' p = get b p).
  Proof.
    intros r mu o s b E Hb. unfold scale_unity. destruct (part_size_ok T r o s E) as [-> _].
    (* the values to come are those of the initial buffer: coefficient by coefficient *)
    assert (G : forall cs b1, length b1 = length b -> NoDup cs -> (forall c, In c cs -> (c < mu)%nat) ->
      exists b', fold_opt K (fun c b => fold_opt K (fun i b' => set1 K (i + c * dof r) (unity K s i * get b' (i + c * dof r)) b') (seq 0 (dof r)) b) cs b1 = Some b' /\ length b' = length b /\
        forall c i, (i < dof r)%nat -> (In c cs -> get b' (i + c * dof r) = unity K s i * get b1 (i + c * dof r)) /\ (~ In c cs -> get b' (i + c * dof r) = get b1 (i + c * dof r))).
    { induction cs as [|c cs IH]; intros b1 L1 Hn Hc.
      - exists b1. split; [reflexivity|]. split; [exact L1|]. intros c i Hi. split; [intros []|reflexivity].
      - inversion Hn as [|? ? N1 N2]; subst. cbn [fold_opt].
        assert (Hcm : (c < mu)%nat) by (apply Hc; left; reflexivity).
        assert (I : forall is b2, length b2 = length b -> NoDup is -> (forall i, In i is -> (i < dof r)%nat) ->
          exists b', fold_opt K (fun i b' => set1 K (i + c * dof r) (unity K s i * get b' (i + c * dof r)) b') is b2 = Some b' /\ length b' = length b /\
            forall p, get b' p = if existsb (fun i => (p =? i + c * dof r)%nat) is then unity K s (p - c * dof r) * get b2 p else get b2 p).
        { induction is as [|i is IHi]; intros b2 L2 Hn2 Hi.
          - exists b2. split; [reflexivity|]. split; [exact L2|]. reflexivity.
          - inversion Hn2 as [|? ? N3 N4]; subst. cbn [fold_opt]. pose proof (Hi i (or_introl eq_refl)).
            destruct (set1_ok K (i + c * dof r) (unity K s i * get b2 (i + c * dof r)) b2) as (b3 & -> & L3 & V3); [nia|].
            destruct (IHi b3 ltac:(lia) N4 ltac:(intros; apply Hi; right; assumption)) as (b' & E' & L' & V').
            exists b'. split; [exact E'|]. split; [exact L'|]. intros p. rewrite V', V3. cbn [existsb].
            destruct (Nat.eqb_spec p (i + c * dof r)) as [->|Hp]; cbn [orb]; [|reflexivity].
            replace (i + c * dof r - c * dof r)%nat with i by lia.
            destruct (existsb _ is) eqn:Ex; [|reflexivity]. exfalso. apply N3. apply existsb_exists in Ex as (i' & Hi' & E2). apply Nat.eqb_eq in E2.
            replace i with i' by lia. exact Hi'. }
        destruct (I (seq 0 (dof r)) b1 L1 (seq_NoDup _ _) ltac:(intros i Hi; apply in_seq in Hi; lia)) as (b2 & -> & L2 & V2).
        destruct (IH b2 L2 N2 ltac:(intros; apply Hc; right; assumption)) as (b' & E' & L' & V').
        exists b'. split; [exact E'|]. split; [exact L'|]. intros c' i Hi. destruct (V' c' i Hi) as [V1' V2'].
        assert (W : get b2 (i + c' * dof r) = if (c' =? c)%nat then unity K s i * get b1 (i + c' * dof r) else get b1 (i + c' * dof r)).
        { rewrite V2. destruct (Nat.eqb_spec c' c) as [->|Hcc].
          - replace (existsb _ _) with true; [f_equal; f_equal; lia|]. symmetry. apply existsb_exists. exists i. split; [apply in_seq; lia|apply Nat.eqb_refl].
          - replace (existsb _ _) with false; [reflexivity|]. symmetry. apply not_true_iff_false. intros Ex. apply existsb_exists in Ex as (i' & Hi' & Ei).
            apply in_seq in Hi'. apply Nat.eqb_eq in Ei. destruct (cols_inj (dof r) i c' i' c Hi ltac:(lia) Ei). congruence. }
        split.
        + intros [<-|Hin].
          * rewrite V2' by exact N1. rewrite W, Nat.eqb_refl. reflexivity.
          * rewrite (V1' Hin), W. destruct (Nat.eqb_spec c' c) as [->|]; [contradiction|reflexivity].
        + intros Hni. rewrite V2' by (intros H; apply Hni; right; exact H). rewrite W. destruct (Nat.eqb_spec c' c) as [->|]; [|reflexivity].
          exfalso. apply Hni. left. reflexivity. }
    destruct (G (seq 0 mu) b eq_refl (seq_NoDup _ _) ltac:(intros c Hc; apply in_seq in Hc; lia)) as (b' & E1 & L1 & V1).
    exists b'. split; [exact E1|]. split; [exact L1|]. split.
    - intros i c Hi Hc. destruct (V1 c i Hi) as [H _]. rewrite H by (apply in_seq; lia). unfold unity. destruct (i <? s)%nat; ring.
    - intros p Hp. destruct (Nat.eq_dec (dof r) 0) as [Ez|Hz].
      + assert (Hid : forall cs b1, fold_opt K (fun c b => fold_opt K (fun i b' => set1 K (i + c * dof r) (unity K s i * get b' (i + c * dof r)) b') (seq 0 (dof r)) b) cs b1 = Some b1)
          by (rewrite Ez; induction cs as [|c cs IHc]; intros b1; [reflexivity|cbn [fold_opt seq]; apply IHc]).
        rewrite Hid in E1. injection E1 as ->. reflexivity.
      + pose proof (Nat.div_mod p (dof r) Hz) as Ep. pose proof (Nat.mod_upper_bound p (dof r) Hz) as Hm.
        destruct (V1 (p / dof r)%nat (p mod dof r)%nat Hm) as [_ H]. replace (p mod dof r + p / dof r * dof r)%nat with p in H by lia. apply H.
        intros Hin. apply in_seq in Hin. nia.
  Qed.

  Lemma scaledexchange_ok : forall arrival mu bs Y, all_arrive S arrival -> inside_restrictions S l2g bs mu Y ->
    exists bs', scaledexchange K S arrival mu bs = Some bs' /\ restrictions S l2g bs' mu Y /\
      forall r, (r < P)%nat -> only_first (dof r * mu) (at_rank K bs r) (at_rank K bs' r).
  Proof.
    intros arrival mu bs Y Ha Hin. unfold scaledexchange.
    destruct (on_ranks_ok buf [] P (fun r => scale_unity K S r mu (at_rank K bs r))
      (fun r b => only_first (dof r * mu) (at_rank K bs r) b /\ (dof r * mu <= length b)%nat /\ forall o s i c, nth_error (pa_parts T) r = Some (o, s) -> (i < dof r)%nat -> (c < mu)%nat ->
         get b (i + c * dof r) = if (i <? s)%nat then Y (l2g r i) c else 0)) as (zs & -> & Lz & Hz).
    { intros r Hr. destruct (part_nth T P HT r Hr) as (o & s & E & _). destruct (Hin r o s Hr E) as [L V].
      destruct (scale_unity_ok r mu o s (at_rank K bs r) E L) as (b & E1 & E2 & E3 & E4). exists b. split; [exact E1|]. split; [split; [exact E2|exact E4]|]. split; [lia|].
      intros o' s' i c E' Hi Hc. rewrite E in E'. injection E' as <- <-. rewrite (E3 i c Hi Hc). destruct (Nat.ltb_spec i s); [apply V; assumption|reflexivity]. }
    destruct (exchange_ok K S l2g HT HO arrival mu zs Y Ha) as (ys & E1 & E2 & E3).
    { intros r Hr. exact (proj1 (proj2 (Hz r Hr))). }
    { intros r o s i c Hr E Hi Hc. exact (proj2 (proj2 (Hz r Hr)) o s i c E Hi Hc). }
    exists ys. split; [exact E1|]. split; [exact E2|]. intros r Hr. apply (only_first_trans K _ _ (at_rank K zs r)); [exact (proj1 (Hz r Hr))|exact (E3 r Hr)].
  Qed.

  Lemma local_rhs_ok : forall arrival mu rhs B, d_perm K D = true -> all_arrive S arrival ->
    (forall r, (r < P)%nat -> holds_cols (at_rank K rhs r) NR mu B) ->
    exists bs, local_rhs K S arrival mu rhs = Some bs /\ restrictions S l2g bs mu B.
  Proof.
    intros arrival mu rhs B Hp Ha Hr. unfold local_rhs. cbv zeta.
    destruct (on_ranks_ok buf [] P (fun r =>
        do s <- part_size T r;
        do o <- part_off T r;
        fold_opt K (fun i b =>
          do q <- ptr K (at_rank K rhs r) (i * NR);
          do p <- to_part K T q (vec0 K NR);
          do src <- ptr K p o;
          put K b src (i * dof r) s) (seq 0 mu) (vec0 K (dof r * mu)))
      (fun r b => forall o s, nth_error (pa_parts T) r = Some (o, s) -> (dof r * mu <= length b)%nat /\
         forall i c, (i < s)%nat -> (c < mu)%nat -> get b (i + c * dof r) = B (l2g r i) c)) as (locs & -> & Ll & Hl).
    { intros r Hrr. destruct (part_nth T P HT r Hrr) as (o & s & E & Hos). destruct (part_size_ok T r o s E) as [-> ->].
      pose proof (ov_size K S l2g HO r o s E) as Hs. destruct (Hr r Hrr) as [Lr Vr].
      set (reg := fun i p => ((i * dof r <=? p) && (p <? i * dof r + s))%nat).
      set (v := fun p => B (l2g r (p mod dof r)%nat) (p / dof r)%nat).
      destruct (loop_ok K nat (fun i b =>
          do q <- ptr K (at_rank K rhs r) (i * NR);
          do p <- to_part K T q (vec0 K NR);
          do src <- ptr K p o;
          put K b src (i * dof r) s) reg v (seq 0 mu) (vec0 K (dof r * mu))) as (b & E1 & E2 & E3 & _).
      { intros i b Hi Lb _. rewrite length_vec0 in *. apply in_seq in Hi. assert (i * NR + NR <= NR * mu)%nat by nia. assert (i * dof r + dof r <= dof r * mu)%nat by nia.
        unfold ptr at 1. destruct (Nat.leb_spec (i * NR) (length (at_rank K rhs r))); [|lia].
        destruct (to_part_ok K T P (skipn (i * NR) (at_rank K rhs r)) (vec0 K NR) HT) as (y & -> & [Ly _] & Vy); [rewrite skipn_length; lia|rewrite length_vec0; lia|].
        rewrite length_vec0 in Ly. unfold ptr. destruct (Nat.leb_spec o (length y)); [|lia].
        destruct (put_ok K b (skipn o y) (i * dof r) s) as (b' & F1 & F2 & F3); [rewrite skipn_length; lia|lia|].
        exists b'. split; [exact F1|]. split; [lia|]. intros p. rewrite F3. unfold reg. destruct (_ && _) eqn:Eb; [|reflexivity].
        apply andb_true_iff in Eb as [B1 B2]. apply Nat.leb_le in B1. apply Nat.ltb_lt in B2.
        rewrite get_skipn, Vy, get_skipn by lia. unfold v.
        assert (Em : (p mod dof r = p - i * dof r)%nat).
        { rewrite <- (Nat.mod_small (p - i * dof r) (dof r)) by lia. rewrite <- (Nat.mod_add (p - i * dof r) i (dof r)) by lia. f_equal. lia. }
        assert (Eq : (p / dof r = i)%nat).
        { replace p with ((p - i * dof r) + i * dof r)%nat by lia. rewrite Nat.div_add, Nat.div_small by lia. reflexivity. }
        rewrite Em, Eq. rewrite (ov_inside K S l2g HO r o s (p - i * dof r) E ltac:(lia)), Hp.
        rewrite <- (Vr (user_index true T (o + (p - i * dof r))%nat) i); [f_equal; lia| |lia]. apply (user_index_lt T P HT). lia. }
      exists b. split; [exact E1|]. intros o' s' E'. rewrite E in E'. injection E' as <- <-. rewrite length_vec0 in E2. split; [lia|].
      intros i c Hi Hc. rewrite (E3 c (i + c * dof r)%nat).
      - unfold v. rewrite Nat.mod_add, Nat.div_add, Nat.mod_small, Nat.div_small by lia. reflexivity.
      - apply in_seq. lia.
      - unfold reg. apply andb_true_iff. split; [apply Nat.leb_le|apply Nat.ltb_lt]; lia. }
    destruct (scaledexchange_ok arrival mu locs B Ha) as (bs & E1 & E2 & _).
    { intros r o s Hrr E. exact (Hl r Hrr o s E). }
    exists bs. split; [exact E1|exact E2].
  Qed.

  (** ** Solutions *)
  (** Any local vectors are the restrictions of some global columns. *)
  Lemma inside_exists : forall mu xs, d_perm K D = true -> local_sizes S mu xs -> exists X, inside_restrictions S l2g xs mu X.
  Proof.
    intros mu xs Hp Hs.
    set (X := fun a c => match find (fun rk => match nth_error (pa_parts T) (fst rk) with Some (o, s) => (snd rk <? s)%nat && (user_index true T (o + snd rk) =? a)%nat | None => false end)
                          (flat_map (fun r => map (fun k => (r, k)) (seq 0 NR)) (seq 0 P)) with
                   | Some rk => get (at_rank K xs (fst rk)) (snd rk + c * dof (fst rk)) | None => 0 end).
    exists X. intros r o s Hr E. pose proof (Hs r Hr) as Hsr. split; [exact Hsr|]. intros i c Hi Hc.
    rewrite (ov_inside K S l2g HO r o s i E Hi), Hp. unfold X.
    pose proof (proj2 (tiles_in _ _ _ _ _ _ (po_tiles _ _ HT) E)) as Hos.
    destruct (find _ _) as [[r' k']|] eqn:Ef.
    - apply find_some in Ef as [_ Ef]. cbn [fst snd] in *. destruct (nth_error (pa_parts T) r') as [[o' s']|] eqn:E'; [|discriminate].
      apply andb_true_iff in Ef as [B1 B2]. apply Nat.ltb_lt in B1. apply Nat.eqb_eq in B2.
      destruct (index_owner K S HT r o s i r' o' s' k' E E' Hi B1) as [-> ->]; [rewrite Hp; symmetry; exact B2|reflexivity].
    - exfalso. pose proof (find_none _ _ Ef (r, i)) as N. cbn [fst snd] in N. rewrite E in N. rewrite Nat.eqb_refl in N.
      destruct (Nat.ltb_spec i s); [|lia]. discriminate N. apply in_flat_map. exists r. split; [apply in_seq; lia|]. apply in_map_iff. exists i. split; [reflexivity|]. apply in_seq. lia.
  Qed.

  Lemma gather_ok : forall mu locs xs works outs X, (mu <> 0)%nat -> d_perm K D = true -> local_sizes S mu locs ->
    (forall r, (r < P)%nat -> (NR * (if (mu =? 1)%nat then 1 else 2 * mu) <= length (at_rank K works r))%nat) ->
    (forall r, (r < P)%nat -> (NR * mu <= length (at_rank K outs r))%nat) -> inside_restrictions S l2g xs mu X ->
    exists ys, gather_solution K S mu locs xs works outs = Some ys /\ length ys = P /\
      forall r, (r < P)%nat -> only_first (NR * mu) (at_rank K outs r) (at_rank K ys r) /\ holds_cols (at_rank K ys r) NR mu X.
  Proof.
    intros mu locs xs works outs X Hmu0 Hp Hl Hw Ho Hx. unfold gather_solution. cbv zeta.
    destruct (on_ranks_ok buf [] P (fun r =>
        do s <- part_size T r;
        fold_opt K (fun i b => do src <- ptr K (at_rank K xs r) (i * dof r); put K b src (i * s) s) (seq 0 mu) (at_rank K locs r))
      (fun r b => forall o s, nth_error (pa_parts T) r = Some (o, s) -> (s * mu <= length b)%nat /\
         forall i j, (i < mu)%nat -> (j < s)%nat -> get b (i * s + j) = X (ui (o + j)%nat) i)) as (lr & -> & Llr & Hlr).
    { intros r Hr. destruct (part_nth T P HT r Hr) as (o & s & E & Hos). destruct (part_size_ok T r o s E) as [-> _].
      pose proof (ov_size K S l2g HO r o s E) as Hs. specialize (Hl r Hr). destruct (Hx r o s Hr E) as [Lx Vx].
      set (reg := fun i p => ((i * s <=? p) && (p <? i * s + s))%nat).
      set (v := fun p => X (ui (o + p mod s)%nat) (p / s)%nat).
      destruct (loop_ok K nat (fun i b => do src <- ptr K (at_rank K xs r) (i * dof r); put K b src (i * s) s) reg v (seq 0 mu) (at_rank K locs r)) as (b & E1 & E2 & E3 & _).
      { intros i b Hi Lb _. apply in_seq in Hi. assert (i * dof r + dof r <= dof r * mu)%nat by nia. assert (i * s + s <= s * mu)%nat by nia. assert (s * mu <= dof r * mu)%nat by nia.
        unfold ptr. destruct (Nat.leb_spec (i * dof r) (length (at_rank K xs r))); [|lia].
        destruct (put_ok K b (skipn (i * dof r) (at_rank K xs r)) (i * s) s) as (b' & F1 & F2 & F3); [rewrite skipn_length; lia|lia|].
        exists b'. split; [exact F1|]. split; [lia|]. intros p. rewrite F3. unfold reg. destruct (_ && _) eqn:Eb; [|reflexivity].
        apply andb_true_iff in Eb as [B1 B2]. apply Nat.leb_le in B1. apply Nat.ltb_lt in B2. rewrite get_skipn.
        replace (i * dof r + (p - i * s))%nat with ((p - i * s) + i * dof r)%nat by lia. rewrite Vx by lia. unfold v.
        assert (Em : (p mod s = p - i * s)%nat).
        { rewrite <- (Nat.mod_small (p - i * s) s) by lia. rewrite <- (Nat.mod_add (p - i * s) i s) by lia. f_equal. lia. }
        assert (Eq : (p / s = i)%nat).
        { replace p with ((p - i * s) + i * s)%nat by lia. rewrite Nat.div_add, Nat.div_small by lia. reflexivity. }
        rewrite Em, Eq, (ov_inside K S l2g HO r o s (p - i * s) E ltac:(lia)). reflexivity. }
      exists b. split; [exact E1|]. intros o' s' E'. rewrite E in E'. injection E' as <- <-. split; [nia|].
      intros i j Hi Hj. rewrite (E3 i (i * s + j)%nat).
      - unfold v. rewrite (Nat.add_comm (i * s)), Nat.mod_add, Nat.div_add, Nat.mod_small, Nat.div_small by lia. reflexivity.
      - apply in_seq. lia.
      - unfold reg. apply andb_true_iff. split; [apply Nat.leb_le|apply Nat.ltb_lt]; lia. }
    rewrite (part_counts_ok T P HT mu).
    set (cs := map (fun os => (snd os * mu)%nat) (pa_parts T)). set (ds := prefix_sums 0 cs).
    apply (on_ranks_ok buf [] P _ (fun r b => only_first (NR * mu) (at_rank K outs r) b /\ holds_cols b NR mu X)).
    intros r Hr. specialize (Ho r Hr). specialize (Hw r Hr).
    set (base := if (mu =? 1)%nat then 0%nat else (mu * NR)%nat).
    assert (Hbase : (base + NR * mu <= length (at_rank K works r))%nat) by (unfold base; destruct (Nat.eqb_spec mu 1); nia).
    destruct (allgatherv_ok K T P mu lr (skipn base (at_rank K works r)) HT) as (ob & E1 & [E2 _] & E3).
    { intros r' o s E. refine (proj1 (Hlr r' _ o s E)). rewrite <- (po_count _ _ HT). apply nth_error_Some. congruence. }
    { rewrite skipn_length. lia. }
    fold cs ds in E1. rewrite skipn_length in E2.
    destruct (write_at_0 K (at_rank K works r) base (fun w => allgatherv K P cs ds lr w) ob) as (g & Eg & Lg & _ & Vg); [lia|exact E1|exact E2|].
    rewrite Eg.
    assert (Hob : forall r' o s i j, nth_error (pa_parts T) r' = Some (o, s) -> (i < mu)%nat -> (j < s)%nat ->
       get g (base + (o * mu + (i * s + j))) = X (ui (o + j)%nat) i).
    { intros r' o s i j E Hi Hj. assert (i * s + s <= s * mu)%nat by nia. rewrite Vg, (E3 r' o s E) by lia.
      apply (Hlr r'); [|exact E|exact Hi|exact Hj]. rewrite <- (po_count _ _ HT). apply nth_error_Some. congruence. }
    (* the copy of the pieces of one column *)
    assert (Hcol : forall i (b : buf), mu <> 1%nat -> (i < mu)%nat -> length b = length g -> (forall p, (mu * NR <= p)%nat -> get b p = get g p) ->
       exists b1, fold_opt K (fun j b' => do src <- ptr K b' (mu * NR + nth j ds 0%nat + i * nth j cs 0%nat / mu)%nat; put K b' src (i * NR + nth j ds 0%nat / mu)%nat (nth j cs 0%nat / mu)%nat) (seq 0 P) b = Some b1 /\
         length b1 = length g /\ (forall a, (a < NR)%nat -> get b1 (i * NR + a) = X (ui a) i) /\ (forall p, (mu * NR <= p)%nat -> get b1 p = get g p)).
    { intros i b Hmu Hi Lb Hsame0.
      assert (Eb : base = (mu * NR)%nat) by (unfold base; destruct (Nat.eqb_spec mu 1); [contradiction|reflexivity]). rewrite Eb in *.
      assert (Hi2 : (i * NR + NR <= mu * NR)%nat) by nia.
      set (reg := fun r p => match nth_error (pa_parts T) r with Some (o, s) => ((i * NR + o <=? p) && (p <? i * NR + o + s))%nat | None => false end).
      assert (Hreg : forall r' p, (mu * NR <= p)%nat -> reg r' p = false).
      { intros r' p Hpp. unfold reg. destruct (nth_error (pa_parts T) r') as [[o' s']|] eqn:E'; [|reflexivity].
        pose proof (proj2 (tiles_in _ _ _ _ _ _ (po_tiles _ _ HT) E')). apply andb_false_iff. right. apply Nat.ltb_ge. lia. }
      destruct (loop_ok K nat (fun j b' => do src <- ptr K b' (mu * NR + nth j ds 0%nat + i * nth j cs 0%nat / mu)%nat; put K b' src (i * NR + nth j ds 0%nat / mu)%nat (nth j cs 0%nat / mu)%nat) reg
        (fun p => X (ui (p - i * NR)%nat) i) (seq 0 P) b) as (b1 & F1 & F2 & F3 & F4).
      { intros j b' Hj Lb' Hsame. apply in_seq in Hj. destruct (part_nth T P HT j ltac:(lia)) as (o & s & E & Hos).
        destruct (counts_nth T P HT j o s mu E) as [C1 C2]. fold cs in C1, C2. fold ds in C2. rewrite C1, C2.
        replace (i * (s * mu))%nat with (i * s * mu)%nat by lia. rewrite !Nat.div_mul by exact Hmu0.
        assert (i * s + s <= s * mu)%nat by nia. assert (o * mu + s * mu <= NR * mu)%nat by nia.
        unfold ptr. destruct (Nat.leb_spec (mu * NR + o * mu + i * s) (length b')); [|lia].
        destruct (put_ok K b' (skipn (mu * NR + o * mu + i * s) b') (i * NR + o) s) as (b2 & G1 & G2 & G3); [rewrite skipn_length; lia|lia|].
        exists b2. split; [exact G1|]. split; [lia|]. intros p. rewrite G3. unfold reg. rewrite E. destruct (_ && _) eqn:B; [|reflexivity].
        apply andb_true_iff in B as [B1 B2]. apply Nat.leb_le in B1. apply Nat.ltb_lt in B2.
        rewrite get_skipn. rewrite Hsame by (intros; apply Hreg; lia). rewrite Hsame0 by lia.
        replace (mu * NR + o * mu + i * s + (p - (i * NR + o)))%nat with (mu * NR + (o * mu + (i * s + (p - (i * NR + o)))))%nat by lia.
        rewrite (Hob j o s) by (try exact E; lia). do 2 f_equal. lia. }
      exists b1. split; [exact F1|]. split; [lia|]. split.
      - intros a Ha. destruct (part_find T P HT a Ha) as (r' & o & s & Hr' & E & B). rewrite (F3 r' (i * NR + a)%nat); [|apply in_seq; lia|].
        + do 2 f_equal. lia.
        + unfold reg. rewrite E. apply andb_true_iff. split; [apply Nat.leb_le|apply Nat.ltb_lt]; lia.
      - intros p Hpp. rewrite F4 by (intros; apply Hreg; exact Hpp). apply Hsame0. exact Hpp. }
    destruct (foldM_inv (buf * buf) (fun i (bo : buf * buf) =>
          do b1 <- (if (mu =? 1)%nat then Some (fst bo)
                    else fold_opt K (fun j b' =>
                           do src <- ptr K b' (mu * NR + nth j ds 0%nat + i * nth j cs 0%nat / mu)%nat;
                           put K b' src (i * NR + nth j ds 0%nat / mu)%nat (nth j cs 0%nat / mu)%nat) (seq 0 P) (fst bo));
          do src <- ptr K b1 (i * NR);
          do o1 <- write_at K (snd bo) (i * NR) 0 (fun w => to_user K T src w);
          Some (b1, o1))
      (fun i bo => length (fst bo) = length g /\ (forall p, ((if mu =? 1 then 0 else mu * NR) <= p)%nat -> get (fst bo) p = get g p) /\
         length (snd bo) = length (at_rank K outs r) /\ (forall p, (i * NR <= p)%nat -> get (snd bo) p = get (at_rank K outs r) p) /\
         forall a c, (a < NR)%nat -> (c < i)%nat -> get (snd bo) (a + c * NR) = X a c) mu (g, at_rank K outs r)) as ([b y] & E4 & _ & _ & I3 & I4 & I5).
    { cbn [fst snd]. split; [reflexivity|]. split; [reflexivity|]. split; [reflexivity|]. split; [reflexivity|]. intros a c _ Hc. lia. }
    { intros i [b out] Hi (I1 & I2 & I3 & I4 & I5). cbn [fst snd] in *.
      assert (i * NR + NR <= NR * mu)%nat by nia.
      assert (Hb1 : exists b1, (if (mu =? 1)%nat then Some b
                    else fold_opt K (fun j b' =>
                           do src <- ptr K b' (mu * NR + nth j ds 0%nat + i * nth j cs 0%nat / mu)%nat;
                           put K b' src (i * NR + nth j ds 0%nat / mu)%nat (nth j cs 0%nat / mu)%nat) (seq 0 P) b) = Some b1 /\ length b1 = length g /\
           (forall a, (a < NR)%nat -> get b1 (i * NR + a) = X (ui a) i) /\ (forall p, ((if mu =? 1 then 0 else mu * NR) <= p)%nat -> get b1 p = get g p)).
      { destruct (Nat.eqb_spec mu 1) as [E1m|Hmu].
        - exists b. split; [reflexivity|]. split; [exact I1|]. split; [|exact I2]. intros a Ha. rewrite I2 by lia.
          destruct (part_find T P HT a Ha) as (r' & o & s & Hr' & E & B). specialize (Hob r' o s i (a - o)%nat E Hi ltac:(lia)).
          replace i with 0%nat in * by lia. unfold base in Hob. rewrite E1m in Hob. cbn [Nat.eqb] in Hob. replace (o + (a - o))%nat with a in Hob by lia.
          rewrite <- Hob. f_equal. lia.
        - apply Hcol; assumption. }
      destruct Hb1 as (b1 & -> & F2 & F3 & F4).
      unfold ptr. assert (Lbig : (i * NR + NR <= length b1)%nat) by lia. destruct (Nat.leb_spec (i * NR) (length b1)); [|lia].
      destruct (to_user_ok K T P (skipn (i * NR) b1) (skipn (i * NR) out) HT) as (w & G1 & [G2 G2'] & G3); [rewrite skipn_length; lia|rewrite skipn_length; lia|].
      rewrite skipn_length in G2.
      destruct (write_at_0 K out (i * NR) (fun w => to_user K T (skipn (i * NR) b1) w) w) as (out1 & -> & W1 & W2 & W3); [lia|exact G1|exact G2|].
      eexists. split; [reflexivity|]. cbn [fst snd]. split; [lia|]. split; [exact F4|]. split; [lia|]. split.
      - intros p Hpp. replace p with (i * NR + (p - i * NR))%nat by lia. rewrite W3, G2' by lia. rewrite get_skipn.
        replace (i * NR + (p - i * NR))%nat with p by lia. apply I4. lia.
      - intros a c Ha Hc. destruct (Nat.eq_dec c i) as [->|Hne].
        + rewrite (Nat.add_comm a). rewrite W3. destruct (user_index_surj T P HT true a Ha) as (k & Hk & <-). rewrite G3, get_skipn, F3, Hp by exact Hk. reflexivity.
        + rewrite W2 by nia. apply I5; lia. }
    rewrite E4. cbn [snd] in *. exists y. split; [reflexivity|]. split; [split; [exact I3|]|split; [lia|]].
    - intros p Hpp. apply I4. lia.
    - intros a c Ha Hc. apply I5; assumption.
  Qed.

  Lemma solve_ok : forall arrival krylov mu rhs works outs B, (mu <> 0)%nat -> d_perm K D = true -> all_arrive S arrival ->
    (forall r, (r < P)%nat -> holds_cols (at_rank K rhs r) NR mu B) ->
    (forall r, (r < P)%nat -> (NR * (if (mu =? 1)%nat then 1 else 2 * mu) <= length (at_rank K works r))%nat) ->
    (forall r, (r < P)%nat -> (NR * mu <= length (at_rank K outs r))%nat) ->
    exists bs, local_rhs K S arrival mu rhs = Some bs /\ restrictions S l2g bs mu B /\
      forall ws xs, krylov bs (map (fun r => vec0 K (dof r * mu)) (seq 0 P)) = Some (ws, xs) -> local_sizes S mu ws -> local_sizes S mu xs ->
        exists ys X, solve K S arrival krylov mu rhs works outs = Some ys /\ inside_restrictions S l2g xs mu X /\
          forall r, (r < P)%nat -> only_first (NR * mu) (at_rank K outs r) (at_rank K ys r) /\ holds_cols (at_rank K ys r) NR mu X.
  Proof.
    intros arrival krylov mu rhs works outs B Hmu Hp Ha Hr Hw Ho.
    destruct (local_rhs_ok arrival mu rhs B Hp Ha Hr) as (bs & E & R). exists bs. split; [exact E|]. split; [exact R|].
    intros ws xs Ek Hws Hxs. destruct (inside_exists mu xs Hp Hxs) as (X & HX).
    destruct (gather_ok mu ws xs works outs X Hmu Hp Hws Hw Ho HX) as (ys & E1 & _ & E3).
    exists ys, X. split; [|split; [exact HX|exact E3]]. unfold solve. rewrite E, Ek. cbn [fst snd]. exact E1.
  Qed.
End D.
