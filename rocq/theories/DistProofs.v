(** * Loops, collectives and renumberings. *)

From Coq Require Import List Arith Bool Lia Ring Permutation.
From Verif Require Import ClusterModel ClusterSpec ClusterMore IOModel BlockModel Algebra BlasModel BlasProofs
  HMatModel HMatSpec HMatTop DistModel DistSpec.
Import ListNotations.

(** ** Ranks *)
Lemma all_some_ok : forall A B (f : B -> option A) (Q : B -> A -> Prop) l,
  (forall b, In b l -> exists a, f b = Some a /\ Q b a) ->
  exists r, all_some (map f l) = Some r /\ Forall2 Q l r.
Proof.
  induction l as [|b l IH]; intros H.
  - exists []. split; [reflexivity|constructor].
  - destruct (H b (or_introl eq_refl)) as (a & E & Ha). destruct IH as (r & E2 & Hr); [intros b' Hb'; apply H; right; exact Hb'|].
    exists (a :: r). cbn [map all_some]. rewrite E, E2. split; [reflexivity|constructor; assumption].
Qed.

Lemma on_ranks_ok : forall A (d : A) P (f : nat -> option A) (Q : nat -> A -> Prop),
  (forall r, r < P -> exists a, f r = Some a /\ Q r a) ->
  exists l, on_ranks P f = Some l /\ length l = P /\ forall r, r < P -> Q r (nth r l d).
Proof.
  intros A d P f Q H. destruct (all_some_ok A nat f Q (seq 0 P)) as (l & E & F).
  { intros r Hr. apply in_seq in Hr. apply H. lia. }
  exists l. split; [exact E|].
  assert (HL : length l = P) by (clear - F; rewrite <- (seq_length P 0); symmetry; induction F; cbn [length]; congruence).
  split; [exact HL|]. intros r Hr.
  assert (G : forall l1 l2, Forall2 Q l1 l2 -> forall k, k < length l1 -> Q (nth k l1 0) (nth k l2 d)).
  { induction 1 as [|x y l1 l2 Hxy HF IHF]; cbn [length]; [lia|]. intros [|k] Hk; [exact Hxy|]. cbn [nth]. apply IHF. lia. }
  specialize (G _ _ F r). rewrite seq_length, seq_nth in G by lia. apply G. exact Hr.
Qed.

(** ** Partitions *)
Lemma tiles_find : forall l lo hi i, tiles lo hi l -> lo <= i < hi ->
  exists r o s, nth_error l r = Some (o, s) /\ o <= i < o + s.
Proof.
  induction l as [|[o s] l IH]; intros lo hi i H Hi; cbn [tiles] in H; [lia|]. destruct H as [-> H].
  destruct (le_lt_dec (lo + s) i) as [Hl|Hl].
  - destruct (IH _ _ i H ltac:(lia)) as (r & o & s' & E & B). exists (S r), o, s'. split; [exact E|exact B].
  - exists 0, lo, s. split; [reflexivity|lia].
Qed.
Lemma tiles_le : forall l lo hi, tiles lo hi l -> lo <= hi.
Proof. induction l as [|[o s] l IH]; intros lo hi H; cbn [tiles] in H; [lia|]. destruct H as [-> H]. apply IH in H. lia. Qed.
Lemma tiles_in : forall l lo hi r o s, tiles lo hi l -> nth_error l r = Some (o, s) -> lo <= o /\ o + s <= hi.
Proof.
  induction l as [|[o s] l IH]; intros lo hi r o' s' H E; [destruct r; discriminate|]. cbn [tiles] in H. destruct H as [-> H].
  destruct r as [|r]; cbn in E.
  - injection E as <- <-. pose proof (tiles_le _ _ _ H). lia.
  - destruct (IH _ _ _ _ _ H E). lia.
Qed.
(** the displacements are the offsets *)
Lemma prefix_parts : forall l lo hi mu r o s, tiles lo hi l -> nth_error l r = Some (o, s) ->
  nth r (prefix_sums (lo * mu) (map (fun os => snd os * mu) l)) 0 = o * mu.
Proof.
  induction l as [|[o s] l IH]; intros lo hi mu r o' s' H E; [destruct r; discriminate|]. cbn [tiles] in H. destruct H as [-> H].
  destruct r as [|r]; cbn in E.
  - injection E as <- <-. reflexivity.
  - cbn [map prefix_sums nth snd]. replace (lo * mu + s * mu) with ((lo + s) * mu) by lia. exact (IH _ _ _ _ _ _ H E).
Qed.
Lemma prefix_sums_const : forall n acc s r, r < n -> nth r (prefix_sums acc (map (fun _ => s) (seq 0 n))) 0 = acc + r * s.
Proof.
  assert (G : forall n a acc s r, r < n -> nth r (prefix_sums acc (map (fun _ : nat => s) (seq a n))) 0 = acc + r * s).
  { induction n as [|n IH]; intros a acc s r Hr; [lia|]. cbn [seq map prefix_sums]. destruct r as [|r]; cbn [nth]; [lia|].
    rewrite IH by lia. lia. }
  intros. apply G. assumption.
Qed.

Section Part.
  Variables (p : partition) (P : nat).
  Hypothesis Hp : partition_ok p P.
  Lemma part_nth : forall r, r < P -> exists o s, nth_error (pa_parts p) r = Some (o, s) /\ o + s <= pa_n p.
  Proof.
    intros r Hr. destruct (nth_error (pa_parts p) r) as [[o s]|] eqn:E.
    - exists o, s. split; [reflexivity|]. exact (proj2 (tiles_in _ _ _ _ _ _ (po_tiles _ _ Hp) E)).
    - apply nth_error_None in E. rewrite (po_count _ _ Hp) in E. lia.
  Qed.
  Lemma part_size_ok : forall r o s, nth_error (pa_parts p) r = Some (o, s) -> part_size p r = Some s /\ part_off p r = Some o.
  Proof. intros r o s E. unfold part_size, part_off. rewrite E. split; reflexivity. Qed.
  Lemma part_counts_ok : forall mu, part_counts p P mu = Some (map (fun os => snd os * mu) (pa_parts p)).
  Proof.
    intros mu. unfold part_counts, on_ranks. rewrite <- (po_count _ _ Hp).
    assert (G : forall l a, (forall r, nth_error l r = nth_error (pa_parts p) (a + r)) ->
      all_some (map (fun r => do s <- part_size p r; Some (s * mu)) (seq a (length l))) = Some (map (fun os => snd os * mu) l)).
    { induction l as [|[o s] l IH]; intros a H; [reflexivity|]. cbn [length seq map all_some].
      unfold part_size. specialize (H 0) as H0. rewrite Nat.add_0_r in H0. rewrite <- H0. cbn [nth_error option_map snd].
      unfold part_size in IH. rewrite IH; [reflexivity|]. intros r. specialize (H (S r)). cbn [nth_error] in H. rewrite H. f_equal. lia. }
    apply G. reflexivity.
  Qed.
  Lemma counts_nth : forall r o s mu, nth_error (pa_parts p) r = Some (o, s) ->
    nth r (map (fun os => snd os * mu) (pa_parts p)) 0 = s * mu /\
    nth r (prefix_sums 0 (map (fun os => snd os * mu) (pa_parts p))) 0 = o * mu.
  Proof.
    intros r o s mu E. split.
    - apply nth_error_nth with (d := 0). rewrite nth_error_map, E. reflexivity.
    - exact (prefix_parts _ 0 (pa_n p) mu r o s (po_tiles _ _ Hp) E).
  Qed.
  Lemma part_find : forall i, i < pa_n p -> exists r o s, r < P /\ nth_error (pa_parts p) r = Some (o, s) /\ o <= i < o + s.
  Proof.
    intros i Hi. destruct (tiles_find _ _ _ i (po_tiles _ _ Hp) ltac:(lia)) as (r & o & s & E & B). exists r, o, s.
    split; [|split; [exact E|exact B]]. rewrite <- (po_count _ _ Hp). apply nth_error_Some. congruence.
  Qed.
  Lemma perm_len : length (pa_perm p) = pa_n p.
  Proof. rewrite (Permutation_length (po_perm _ _ Hp)), seq_length. reflexivity. Qed.
  Lemma user_index_lt : forall b i, i < pa_n p -> user_index b p i < pa_n p.
  Proof.
    intros [] i Hi; cbn; [|exact Hi].
    assert (HI : In (nth i (pa_perm p) 0) (seq 0 (pa_n p))) by (apply (Permutation_in _ (po_perm _ _ Hp)), nth_In; rewrite perm_len; exact Hi).
    apply in_seq in HI. lia.
  Qed.
  Lemma user_index_surj : forall b a, a < pa_n p -> exists i, i < pa_n p /\ user_index b p i = a.
  Proof.
    intros [] a Ha; cbn; [|exists a; auto].
    assert (HI : In a (pa_perm p)) by (apply (Permutation_in _ (Permutation_sym (po_perm _ _ Hp))), in_seq; lia).
    destruct (In_nth _ _ 0 HI) as (i & Hi & E). exists i. rewrite perm_len in Hi. auto.
  Qed.
End Part.

Section D.
  Variable K : Coef.
  Notation C := (car K).
  Notation buf := (list C).
  Notation "0" := (c0 K).
  Notation "1" := (c1 K).
  Notation "x + y" := (cadd K x y).
  Notation "x * y" := (cmul K x y).
  Add Ring Kring8 : (c_ring K).

  Lemma nth_error_get : forall (l : buf) i x, nth_error l i = Some x -> get l i = x.
  Proof. intros l i x H. unfold get. apply nth_error_nth. exact H. Qed.

  Lemma sum_user : forall p P b f, partition_ok p P -> sum (pa_n p) (fun i => f (user_index b p i)) = sum (pa_n p) f :> C.
  Proof.
    intros p P b f Hp. destruct b; [|reflexivity]. rewrite !sum_lsum. rewrite (lsum_perm K _ _ _ f (Permutation_sym (po_perm _ _ Hp))).
    unfold user_index. rewrite <- (lsum_map K nat nat (fun i => nth i (pa_perm p) 0%nat)). f_equal.
    rewrite <- (perm_len p P Hp). clear. induction (pa_perm p) as [|a l IH]; [reflexivity|].
    cbn [length seq map]. rewrite <- seq_shift, map_map. cbn [nth]. f_equal. exact IH.
  Qed.

  (** ** Loops that write *)
  Lemma mov_ok : forall src p q (dst : buf), (p < length src)%nat -> (q < length dst)%nat ->
    exists d, mov K src p q dst = Some d /\ length d = length dst /\ forall x, get d x = if (x =? q)%nat then get src p else get dst x.
  Proof. intros src p q dst H1 H2. unfold mov. destruct (Nat.ltb_spec p (length src)); [|lia]. apply set1_ok. exact H2. Qed.

  Lemma put_ok : forall dst src d n, (n <= length src)%nat -> (d + n <= length dst)%nat ->
    exists b, put K dst src d n = Some b /\ length b = length dst /\
      forall p, get b p = if (d <=? p)%nat && (p <? d + n)%nat then get src (p - d) else get dst p.
  Proof.
    intros dst src d n H1 H2. unfold put. destruct (Nat.leb_spec n (length src)); [|lia].
    destruct (Nat.leb_spec (d + n) (length dst)); [|lia]. cbn [andb]. eexists. split; [reflexivity|]. split.
    - rewrite !app_length, !firstn_length, skipn_length. lia.
    - intros p. rewrite !get_app, !firstn_length, !get_firstn, get_skipn, !Nat.min_l by lia.
      destruct (Nat.leb_spec d p), (Nat.ltb_spec p d), (Nat.ltb_spec p (d + n)), (Nat.ltb_spec (p - d) n); cbn [andb]; try lia; try reflexivity.
      f_equal. lia.
  Qed.

  (** Each iteration writes the value [v p] at the positions [p] of its region and leaves the others. *)
  Lemma loop_ok : forall A (f : A -> buf -> option buf) (reg : A -> nat -> bool) (v : nat -> C) (l : list A) (b0 : buf),
    (forall a b, In a l -> length b = length b0 -> (forall p, (forall a', In a' l -> reg a' p = false) -> get b p = get b0 p) ->
      exists b', f a b = Some b' /\ length b' = length b0 /\ forall p, get b' p = if reg a p then v p else get b p) ->
    exists b', fold_opt K f l b0 = Some b' /\ length b' = length b0 /\
      (forall a p, In a l -> reg a p = true -> get b' p = v p) /\
      (forall p, (forall a, In a l -> reg a p = false) -> get b' p = get b0 p).
  Proof.
    intros A f reg v l b0 H.
    assert (G : forall l1 l2 b, l = l1 ++ l2 -> length b = length b0 ->
      (forall a p, In a l1 -> reg a p = true -> get b p = v p) ->
      (forall p, (forall a, In a l1 -> reg a p = false) -> get b p = get b0 p) ->
      exists b', fold_opt K f l2 b = Some b' /\ length b' = length b0 /\
        (forall a p, In a l -> reg a p = true -> get b' p = v p) /\
        (forall p, (forall a, In a l -> reg a p = false) -> get b' p = get b0 p)).
    { intros l1 l2. revert l1. induction l2 as [|a l2 IH]; intros l1 b El Hb H1 H2.
      - rewrite app_nil_r in El. subst l1. exists b. auto.
      - destruct (H a b) as (b' & E1 & E2 & E3); [rewrite El; apply in_or_app; right; left; reflexivity|exact Hb| |].
        { intros p Hp. apply H2. intros a' Ha'. apply Hp. rewrite El. apply in_or_app. left. exact Ha'. }
        cbn [fold_opt]. rewrite E1. apply (IH (l1 ++ [a]) b'); [rewrite <- app_assoc; exact El|exact E2| |].
        + intros a' p Ha' Hr. rewrite E3. destruct (reg a p) eqn:Er; [reflexivity|]. apply in_app_or in Ha' as [Ha'|[<-|[]]]; [|congruence].
          apply H1 with a'; assumption.
        + intros p Hp. rewrite E3. rewrite (Hp a); [|apply in_or_app; right; left; reflexivity]. apply H2. intros a' Ha'. apply Hp, in_or_app.
          left. exact Ha'. }
    apply (G [] l b0); auto; intros a p [].
  Qed.

  (** The double loop of a repacking: position [pos i j] receives [val i j]. *)
  Lemma transpose_ok : forall (f : nat -> nat -> buf -> option buf) (pos : nat -> nat -> nat) (val : nat -> nat -> C) mu n (b0 : buf),
    (forall i j i' j', (i < mu -> j < n -> i' < mu -> j' < n -> pos i j = pos i' j' -> i = i' /\ j = j')%nat) ->
    (forall i j b, (i < mu)%nat -> (j < n)%nat -> length b = length b0 ->
      (forall p, (forall i' j', (i' < mu)%nat -> (j' < n)%nat -> p <> pos i' j') -> get b p = get b0 p) ->
      exists b', f i j b = Some b' /\ length b' = length b0 /\ forall p, get b' p = if (p =? pos i j)%nat then val i j else get b p) ->
    exists b', fold_opt K (fun i b => fold_opt K (fun j b' => f i j b') (seq 0 n) b) (seq 0 mu) b0 = Some b' /\ length b' = length b0 /\
      (forall i j, (i < mu)%nat -> (j < n)%nat -> get b' (pos i j) = val i j) /\
      (forall p, (forall i j, (i < mu)%nat -> (j < n)%nat -> p <> pos i j) -> get b' p = get b0 p).
  Proof.
    intros f pos val mu n b0 Hinj Hf.
    set (inreg := fun i p => existsb (fun j => (p =? pos i j)%nat) (seq 0 n)).
    set (v := fun p => match find (fun ij => (p =? pos (fst ij) (snd ij))%nat) (flat_map (fun i => map (fun j => (i, j)) (seq 0 n)) (seq 0 mu)) with
                       | Some ij => val (fst ij) (snd ij) | None => 0 end).
    assert (Hv : forall i j, (i < mu)%nat -> (j < n)%nat -> v (pos i j) = val i j).
    { intros i j Hi Hj. unfold v. destruct (find _ _) as [[i' j']|] eqn:E.
      - apply find_some in E as [E1 E2]. apply Nat.eqb_eq in E2. cbn [fst snd] in *.
        apply in_flat_map in E1 as (i2 & Hi2 & Hj2). apply in_map_iff in Hj2 as (j2 & E3 & Hj2). injection E3 as -> ->.
        apply in_seq in Hi2, Hj2. destruct (Hinj i j i' j') as [-> ->]; try lia. reflexivity.
      - exfalso. pose proof (find_none _ _ E (i, j)) as N. cbn [fst snd] in N. rewrite Nat.eqb_refl in N.
        discriminate N. apply in_flat_map. exists i. split; [apply in_seq; lia|]. apply in_map_iff. exists j. split; [reflexivity|apply in_seq; lia]. }
    assert (Hreg : forall i p, inreg i p = true <-> exists j, (j < n)%nat /\ p = pos i j).
    { intros i p. unfold inreg. rewrite existsb_exists. split.
      - intros (j & Hj & E). apply in_seq in Hj. apply Nat.eqb_eq in E. exists j. split; [lia|exact E].
      - intros (j & Hj & E). exists j. split; [apply in_seq; lia|apply Nat.eqb_eq; exact E]. }
    destruct (loop_ok nat (fun i b => fold_opt K (fun j b' => f i j b') (seq 0 n) b) inreg v (seq 0 mu) b0) as (b' & E1 & E2 & E3 & E4).
    { intros i b Hi Hb Hsame. apply in_seq in Hi. 
      destruct (loop_ok nat (fun j b' => f i j b') (fun j p => (p =? pos i j)%nat) v (seq 0 n) b) as (b2 & F1 & F2 & F3 & F4).
      { intros j b1 Hj Hb1 Hs1. apply in_seq in Hj. destruct (Hf i j b1) as (b2 & G1 & G2 & G3); [lia|lia|lia| |].
        { intros p Hp. rewrite Hs1.
          - apply Hsame. intros i' Hi'. apply in_seq in Hi'. apply Bool.not_true_iff_false. intros Hc. apply Hreg in Hc as (j' & Hj' & ->).
            apply (Hp i' j'); [lia|lia|reflexivity].
          - intros j' Hj'. apply in_seq in Hj'. apply Nat.eqb_neq. apply Hp; lia. }
        exists b2. split; [exact G1|]. split; [lia|]. intros p. rewrite G3. destruct (Nat.eqb_spec p (pos i j)) as [->|]; [|reflexivity].
        symmetry. apply Hv; lia. }
      exists b2. split; [exact F1|]. split; [lia|]. intros p. destruct (inreg i p) eqn:Er.
      - apply Hreg in Er as (j & Hj & ->). apply F3 with j; [apply in_seq; lia|apply Nat.eqb_refl].
      - apply F4. intros j Hj. apply in_seq in Hj. apply Nat.eqb_neq. intros ->. apply Bool.not_true_iff_false in Er. apply Er, Hreg.
        exists j. split; [lia|reflexivity]. }
    exists b'. split; [exact E1|]. split; [exact E2|]. split.
    - intros i j Hi Hj. rewrite (E3 i); [apply Hv; assumption|apply in_seq; lia|]. apply Hreg. exists j. auto.
    - intros p Hp. apply E4. intros i Hi. apply in_seq in Hi. apply Bool.not_true_iff_false. intros Hc. apply Hreg in Hc as (j & Hj & E).
      apply (Hp i j); [lia|exact Hj|exact E].
  Qed.

  (** ** Renumberings *)
  Section Renum.
    Variables (p : partition) (P : nat).
    Hypothesis Hp : partition_ok p P.
    Variables (off sz : nat).
    Hypothesis Hb : (off + sz <= pa_n p)%nat.
    Hypothesis Hloc : Permutation (slice off sz (pa_perm p)) (seq off sz).

    Let Hlok : loc_ok (pa_perm p) off sz 0 sz := renum_lok (pa_n p) off sz (pa_perm p) (po_perm _ _ Hp) Hb Hloc.

    Lemma loc_index : forall i, (i < sz)%nat -> (off <= nth (off + i) (pa_perm p) 0 < off + sz)%nat.
    Proof.
      intros i Hi. destruct (Hlok i ltac:(lia)) as (u & E & B). rewrite (nth_error_nth _ _ 0%nat E). exact B.
    Qed.
    Lemma gather_ok : forall (x out : buf), (sz <= length x)%nat -> (sz <= length out)%nat ->
      exists y, user_to_cluster off sz (pa_perm p) x out = Some y /\ length y = length out /\
        (forall i, (i < sz)%nat -> get y i = get x (nth (off + i) (pa_perm p) 0 - off)%nat) /\
        (forall q, (sz <= q)%nat -> get y q = get out q).
    Proof.
      intros x out Hx Ho. unfold user_to_cluster.
      destruct (gather_spec _ (pa_perm p) off x sz 0 out) as (y & E1 & E2 & E3 & E4); [lia| |].
      { intros j Hj. destruct (Hlok j Hj) as (u & E & B). exists u. split; [exact E|lia]. }
      exists y. split; [exact E1|]. split; [exact E2|]. split.
      - intros i Hi. destruct (E3 i ltac:(lia)) as (u & F1 & F2). rewrite (nth_error_nth _ _ 0%nat F1).
        destruct (Hlok i ltac:(lia)) as (u' & F3 & F4). assert (u' = u) by congruence. subst u'.
        destruct (nth_error x (u - off)) as [c|] eqn:Ec; [|apply nth_error_None in Ec; lia].
        rewrite (nth_error_get _ _ _ Ec). apply nth_error_get. exact F2.
      - intros q Hq. assert (E : nth_error y q = nth_error out q) by (apply E4; lia).
        destruct (nth_error out q) as [c|] eqn:Ec.
        + rewrite (nth_error_get _ _ _ Ec), (nth_error_get _ _ _ E). reflexivity.
        + apply nth_error_None in Ec, E. rewrite !get_over by assumption. reflexivity.
    Qed.
    Lemma scatter_ok : forall (x out : buf), (sz <= length x)%nat -> (sz <= length out)%nat ->
      exists y, cluster_to_user off sz (pa_perm p) x out = Some y /\ length y = length out /\
        (forall i, (i < sz)%nat -> get y (nth (off + i) (pa_perm p) 0 - off)%nat = get x i) /\
        (forall q, (sz <= q)%nat -> get y q = get out q).
    Proof.
      intros x out Hx Ho. unfold cluster_to_user.
      destruct (scatter_spec _ (pa_perm p) off x sz 0 out) as (y & E1 & E2 & E3 & E4); [lia| | |].
      { intros j Hj. destruct (Hlok j Hj) as (u & E & B). exists u. split; [exact E|lia]. }
      { intros j k Hj Hk. apply (renum_inj (pa_n p) off sz (pa_perm p) (po_perm _ _ Hp) Hb); lia. }
      exists y. split; [exact E1|]. split; [exact E2|]. split.
      - intros i Hi. destruct (E3 i ltac:(lia)) as (u & F1 & F2). rewrite (nth_error_nth _ _ 0%nat F1).
        destruct (nth_error x i) as [c|] eqn:Ec; [|apply nth_error_None in Ec; lia].
        rewrite (nth_error_get _ _ _ Ec). apply nth_error_get. exact F2.
      - intros q Hq. assert (E : nth_error y q = nth_error out q).
        { apply E4. intros j Hj Ej. destruct (Hlok j Hj) as (u & F & B). rewrite F in Ej. injection Ej as ->. lia. }
        destruct (nth_error out q) as [c|] eqn:Ec.
        + rewrite (nth_error_get _ _ _ Ec), (nth_error_get _ _ _ E). reflexivity.
        + apply nth_error_None in Ec, E. rewrite !get_over by assumption. reflexivity.
    Qed.
  End Renum.

  Lemma root_local : forall p P, partition_ok p P -> Permutation (slice 0 (pa_n p) (pa_perm p)) (seq 0 (pa_n p)).
  Proof.
    intros p P Hp. unfold slice. cbn [skipn]. rewrite firstn_all2 by (rewrite (perm_len p P Hp); lia). exact (po_perm _ _ Hp).
  Qed.
  Lemma to_part_ok : forall p P x out, partition_ok p P -> (pa_n p <= length x)%nat -> (pa_n p <= length out)%nat ->
    exists y, to_part K p x out = Some y /\ only_first (pa_n p) out y /\ forall i, (i < pa_n p)%nat -> get y i = get x (user_index true p i).
  Proof.
    intros p P x out Hp Hx Ho. destruct (gather_ok p P Hp 0 (pa_n p) ltac:(lia) (root_local p P Hp) x out Hx Ho) as (y & E1 & E2 & E3 & E4).
    exists y. split; [exact E1|]. split; [split; [exact E2|exact E4]|]. intros i Hi. rewrite (E3 i Hi). unfold user_index. f_equal. cbn [Nat.add]. lia.
  Qed.
  Lemma to_user_ok : forall p P x out, partition_ok p P -> (pa_n p <= length x)%nat -> (pa_n p <= length out)%nat ->
    exists y, to_user K p x out = Some y /\ only_first (pa_n p) out y /\ forall i, (i < pa_n p)%nat -> get y (user_index true p i) = get x i.
  Proof.
    intros p P x out Hp Hx Ho. destruct (scatter_ok p P Hp 0 (pa_n p) ltac:(lia) (root_local p P Hp) x out Hx Ho) as (y & E1 & E2 & E3 & E4).
    exists y. split; [exact E1|]. split; [split; [exact E2|exact E4]|]. intros i Hi. rewrite <- (E3 i Hi). unfold user_index. f_equal. cbn [Nat.add]. lia.
  Qed.
  Section Local.
    Variables (p : partition) (P r o s : nat).
    Hypothesis Hp : partition_ok p P.
    Hypothesis Hl : partition_local p.
    Hypothesis E : nth_error (pa_parts p) r = Some (o, s).
    Let Hb : (o + s <= pa_n p)%nat := proj2 (tiles_in _ _ _ _ _ _ (po_tiles _ _ Hp) E).
    Let Hloc : Permutation (slice o s (pa_perm p)) (seq o s) := Hl (o, s) (nth_error_In _ _ E).
    Lemma local_index : forall i, (i < s)%nat -> (o <= user_index true p (o + i) < o + s)%nat.
    Proof. exact (loc_index p P Hp o s Hb Hloc). Qed.
    Lemma to_part_local_ok : forall x out, (s <= length x)%nat -> (s <= length out)%nat ->
      exists y, to_part_local K p r x out = Some y /\ only_first s out y /\
        forall i, (i < s)%nat -> get y i = get x (user_index true p (o + i) - o)%nat.
    Proof.
      intros x out Hx Ho. unfold to_part_local. destruct (part_size_ok p r o s E) as [-> ->].
      destruct (gather_ok p P Hp o s Hb Hloc x out Hx Ho) as (y & E1 & E2 & E3 & E4). exists y. split; [exact E1|]. split; [split; assumption|exact E3].
    Qed.
    Lemma to_user_local_ok : forall x out, (s <= length x)%nat -> (s <= length out)%nat ->
      exists y, to_user_local K p r x out = Some y /\ only_first s out y /\
        forall i, (i < s)%nat -> get y (user_index true p (o + i) - o)%nat = get x i.
    Proof.
      intros x out Hx Ho. unfold to_user_local. destruct (part_size_ok p r o s E) as [-> ->].
      destruct (scatter_ok p P Hp o s Hb Hloc x out Hx Ho) as (y & E1 & E2 & E3 & E4). exists y. split; [exact E1|]. split; [split; assumption|exact E3].
    Qed.
    Lemma local_surj : forall a, (a < s)%nat -> exists i, (i < s)%nat /\ user_index true p (o + i) = (o + a)%nat.
    Proof.
      intros a Ha. destruct (renum_surj (pa_n p) o s (pa_perm p) Hb Hloc a Ha) as (j & Hj & Ej).
      exists j. split; [exact Hj|]. unfold user_index. apply nth_error_nth. exact Ej.
    Qed.
  End Local.

  (** ** Collectives *)
  Lemma allgatherv_ok : forall p P mu (sends : list buf) recv, partition_ok p P ->
    (forall r o s, nth_error (pa_parts p) r = Some (o, s) -> (s * mu <= length (at_rank K sends r))%nat) ->
    (pa_n p * mu <= length recv)%nat ->
    let cs := map (fun os => (snd os * mu)%nat) (pa_parts p) in
    exists b, allgatherv K P cs (prefix_sums 0 cs) sends recv = Some b /\ only_first (pa_n p * mu) recv b /\
      forall r o s, nth_error (pa_parts p) r = Some (o, s) -> forall k, (k < s * mu)%nat -> get b (o * mu + k) = get (at_rank K sends r) k.
  Proof.
    intros p P mu sends recv Hp Hs Hr cs. unfold allgatherv.
    set (v := fun q => match find (fun r => match nth_error (pa_parts p) r with Some (o, s) => (o * mu <=? q)%nat && (q <? o * mu + s * mu)%nat | None => false end)
                         (seq 0 P) with
                       | Some r => match nth_error (pa_parts p) r with Some (o, s) => get (at_rank K sends r) (q - o * mu) | None => 0 end | None => 0 end).
    set (reg := fun r q => match nth_error (pa_parts p) r with Some (o, s) => (o * mu <=? q)%nat && (q <? o * mu + s * mu)%nat | None => false end).
    assert (Huniq : forall r1 r2 o1 s1 o2 s2 q, nth_error (pa_parts p) r1 = Some (o1, s1) -> nth_error (pa_parts p) r2 = Some (o2, s2) ->
       (o1 * mu <= q < o1 * mu + s1 * mu)%nat -> (o2 * mu <= q < o2 * mu + s2 * mu)%nat -> r1 = r2).
    { assert (G : forall l lo hi r1 r2 o1 s1 o2 s2, tiles lo hi l -> (r1 < r2)%nat -> nth_error l r1 = Some (o1, s1) -> nth_error l r2 = Some (o2, s2) -> (o1 + s1 <= o2)%nat).
      { induction l as [|[o s] l IH]; intros lo hi r1 r2 o1 s1 o2 s2 HT Hlt E1 E2; [destruct r1; discriminate|]. cbn [tiles] in HT. destruct HT as [-> HT].
        destruct r2 as [|r2]; [lia|]. cbn [nth_error] in E2. destruct r1 as [|r1]; cbn [nth_error] in E1.
        - injection E1 as <- <-. exact (proj1 (tiles_in _ _ _ _ _ _ HT E2)).
        - exact (IH _ _ r1 r2 _ _ _ _ HT ltac:(lia) E1 E2). }
      intros r1 r2 o1 s1 o2 s2 q E1 E2 B1 B2. destruct (lt_eq_lt_dec r1 r2) as [[Hlt|Heq]|Hlt]; [|exact Heq|].
      - pose proof (G _ _ _ _ _ _ _ _ _ (po_tiles _ _ Hp) Hlt E1 E2). nia.
      - pose proof (G _ _ _ _ _ _ _ _ _ (po_tiles _ _ Hp) Hlt E2 E1). nia. }
    assert (Hv : forall r o s q, nth_error (pa_parts p) r = Some (o, s) -> (o * mu <= q < o * mu + s * mu)%nat -> v q = get (at_rank K sends r) (q - o * mu)).
    { intros r o s q E B. unfold v. destruct (find _ _) as [r'|] eqn:F.
      - apply find_some in F as [F1 F2]. destruct (nth_error (pa_parts p) r') as [[o' s']|] eqn:E'; [|discriminate].
        apply andb_true_iff in F2 as [B1 B2]. apply Nat.leb_le in B1. apply Nat.ltb_lt in B2.
        assert (r' = r) by (exact (Huniq _ _ _ _ _ _ q E' E ltac:(lia) B)). subst r'. rewrite E in E'. injection E' as <- <-. reflexivity.
      - exfalso. pose proof (find_none _ _ F r) as N. cbv beta in N. rewrite E in N.
        assert (Hr' : In r (seq 0 P)). { apply in_seq. cut (r < length (pa_parts p))%nat; [rewrite (po_count _ _ Hp); lia|]. apply nth_error_Some. congruence. }
        specialize (N Hr'). apply andb_false_iff in N as [N|N]; [apply Nat.leb_gt in N|apply Nat.ltb_ge in N]; lia. }
    destruct (loop_ok nat (fun j b => put K b (at_rank K sends j) (nth j (prefix_sums 0 cs) 0%nat) (nth j cs 0%nat)) reg v (seq 0 P) recv) as (b & E1 & E2 & E3 & E4).
    { intros r b Hin Hb Hsame. apply in_seq in Hin. destruct (part_nth p P Hp r ltac:(lia)) as (o & s & E & Hos).
      destruct (counts_nth p P Hp r o s mu E) as [C1 C2]. fold cs in C1, C2. rewrite C1, C2.
      destruct (put_ok b (at_rank K sends r) (o * mu) (s * mu)) as (b' & F1 & F2 & F3); [exact (Hs r o s E)|rewrite Hb; nia|].
      exists b'. split; [exact F1|]. split; [lia|]. intros q. rewrite F3. unfold reg. rewrite E.
      destruct (_ && _) eqn:B; [|reflexivity]. symmetry. apply andb_true_iff in B as [B1 B2]. apply Nat.leb_le in B1. apply Nat.ltb_lt in B2.
      apply (Hv r o s q E). lia. }
    exists b. split; [exact E1|]. split; [split; [exact E2|]|].
    - intros q Hq. apply E4. intros r Hin. unfold reg. destruct (nth_error (pa_parts p) r) as [[o s]|] eqn:E; [|reflexivity].
      pose proof (tiles_in _ _ _ _ _ _ (po_tiles _ _ Hp) E). apply andb_false_iff. right. apply Nat.ltb_ge. nia.
    - intros r o s E k Hk. rewrite (E3 r (o * mu + k)%nat).
      + rewrite (Hv r o s _ E) by lia. f_equal. lia.
      + apply in_seq. cut (r < length (pa_parts p))%nat; [rewrite (po_count _ _ Hp); lia|]. apply nth_error_Some. congruence.
      + unfold reg. rewrite E. apply andb_true_iff. split; [apply Nat.leb_le|apply Nat.ltb_lt]; lia.
  Qed.

  Lemma allreduce_ok : forall n (bs : list buf) r, (r < length bs)%nat -> (forall b, In b bs -> (n <= length b)%nat) ->
    exists b, allreduce K n bs r = Some b /\ only_first n (at_rank K bs r) b /\ forall i, (i < n)%nat -> get b i = lsum bs (fun b => get b i).
  Proof.
    intros n bs r Hr H. unfold allreduce.
    assert (E : forallb (fun b => (n <=? length b)%nat) bs = true) by (apply forallb_forall; intros b Hb; apply Nat.leb_le, H, Hb).
    rewrite E. eexists. split; [reflexivity|].
    destruct (head_upd K n (fun i => lsum bs (fun b => get b i)) (at_rank K bs r)) as [H1 H2]; [apply H, nth_In, Hr|].
    split; [split; [exact H1|]|].
    - intros q Hq. rewrite H2. destruct (Nat.ltb_spec q n); [lia|reflexivity].
    - intros i Hi. rewrite H2. destruct (Nat.ltb_spec i n); [reflexivity|lia].
  Qed.

  Lemma fill0_ok : forall n (x : buf), (n <= length x)%nat ->
    exists y, fill0 K n x = Some y /\ only_first n x y /\ forall i, (i < n)%nat -> get y i = 0.
  Proof.
    intros n x H. destruct (transform_ok K n (fun _ => 0) x H) as (y & E1 & E2 & E3). exists y. split; [exact E1|]. split; [split; [exact E2|]|].
    - intros q Hq. rewrite E3. destruct (Nat.ltb_spec q n); [lia|reflexivity].
    - intros i Hi. rewrite E3. destruct (Nat.ltb_spec i n); [reflexivity|lia].
  Qed.
  Lemma length_vec0 : forall n, length (vec0 K n) = n.
  Proof. intros. apply repeat_length. Qed.

  (** ** The local operators one after the other *)
  Lemma add_up_ok : forall runs no ni mu M (x : buf), add_up runs no ni mu M -> (ni * mu <= length x)%nat -> forall y, (no * mu <= length y)%nat ->
    exists y', fold_opt K (fun (run : buf -> buf -> option buf) b => run x b) runs y = Some y' /\ only_first (no * mu) y y' /\
      forall i c, (i < no)%nat -> (c < mu)%nat -> get y' (i * mu + c) = get y (i * mu + c) + sum ni (fun j => M i j * get x (j * mu + c)).
  Proof.
    intros runs no ni mu M x (Bs & F & HM) Hx y Hy.
    assert (G : exists y', fold_opt K (fun (run : buf -> buf -> option buf) b => run x b) runs y = Some y' /\ only_first (no * mu) y y' /\
      forall i c, (i < no)%nat -> (c < mu)%nat -> get y' (i * mu + c) = get y (i * mu + c) + sum ni (fun j => lsum Bs (fun B => B i j) * get x (j * mu + c))).
    { clear HM. revert y Hy. induction F as [|run B runs Bs HB F IH]; intros y Hy.
      - exists y. split; [reflexivity|]. split; [split; auto|]. intros i c Hi Hc. cbn [lsum]. rewrite sum_0; [ring|]. intros. ring.
      - destruct (HB x y Hx Hy) as (y1 & E1 & [E2 E2'] & E3). destruct (IH y1 ltac:(lia)) as (y2 & G1 & [G2 G2'] & G3).
        exists y2. cbn [fold_opt]. rewrite E1. split; [exact G1|]. split; [split; [lia|]|].
        + intros p Hp. rewrite G2', E2' by exact Hp. reflexivity.
        + intros i c Hi Hc. rewrite G3, E3 by assumption. cbn [lsum].
          rewrite (sum_ext K ni (fun j => (B i j + lsum Bs (fun B0 => B0 i j)) * get x (j * mu + c))
                     (fun j => B i j * get x (j * mu + c) + lsum Bs (fun B0 => B0 i j) * get x (j * mu + c))) by (intros; ring).
          rewrite sum_add. ring. }
    destruct G as (y' & G1 & G2 & G3). exists y'. split; [exact G1|]. split; [exact G2|]. intros i c Hi Hc. rewrite G3 by assumption. f_equal.
    apply sum_ext. intros j Hj. rewrite HM by assumption. reflexivity.
  Qed.
  Lemma fold_map : forall A B (f : A -> B) (g : B -> buf -> option buf) l b, fold_opt K g (map f l) b = fold_opt K (fun a => g (f a)) l b.
  Proof. induction l as [|a l IH]; intros b; cbn; [reflexivity|]. destruct (g (f a) b); [apply IH|reflexivity]. Qed.

  Lemma add_up_disjoint_ok : forall runs no ni mu M (x : buf), add_up_disjoint runs no ni mu M -> (ni * mu <= length x)%nat ->
    forall y, (no * mu <= length y)%nat -> (forall i c, (i < no)%nat -> (c < mu)%nat -> get y (i * mu + c) = 0) ->
    exists y', fold_opt K (fun (run : buf -> buf -> option buf) b => run x b) runs y = Some y' /\ only_first (no * mu) y y' /\
      forall i c, (i < no)%nat -> (c < mu)%nat -> get y' (i * mu + c) = sum ni (fun j => M i j * get x (j * mu + c)).
  Proof.
    intros runs no ni mu M x (Bs & F & HD & HM) Hx y Hy H0.
    assert (G : forall y, (no * mu <= length y)%nat ->
      (forall B i c, In B Bs -> (fst (fst B) <= i < fst (fst B) + snd (fst B))%nat -> (i < no)%nat -> (c < mu)%nat -> get y (i * mu + c) = 0) ->
      exists y', fold_opt K (fun (run : buf -> buf -> option buf) b => run x b) runs y = Some y' /\ only_first (no * mu) y y' /\
      forall i c, (i < no)%nat -> (c < mu)%nat -> get y' (i * mu + c) = get y (i * mu + c) + sum ni (fun j => lsum Bs (fun B => snd B i j) * get x (j * mu + c))).
    { clear HM H0 Hy y. induction F as [|run B runs Bs HB F IH]; intros y Hy HZ.
      - exists y. split; [reflexivity|]. split; [split; auto|]. intros i c Hi Hc. cbn [lsum]. rewrite sum_0; [ring|]. intros. ring.
      - destruct HB as (Hsn & HB0 & HB). cbn [map] in HD. inversion HD as [|a l HD1 HD2]; subst.
        destruct (HB x y Hx Hy) as (y1 & E1 & [E2 E2'] & E3).
        { intros i c Hi Hc. apply (HZ B i c); [left; reflexivity|exact Hi|lia|exact Hc]. }
        destruct (IH HD2 y1 ltac:(lia)) as (y2 & G1 & [G2 G2'] & G3).
        { intros B' i c HB' Hi Hin Hc. rewrite E3 by assumption. rewrite (HZ B' i c); [|right; exact HB'|exact Hi|exact Hin|exact Hc].
          rewrite sum_0; [ring|]. intros j Hj. rewrite HB0; [ring|exact Hin|].
          rewrite Forall_forall in HD1. specialize (HD1 (fst B') (in_map fst _ _ HB')). unfold disjoint_iv in HD1. lia. }
        exists y2. cbn [fold_opt]. rewrite E1. split; [exact G1|]. split; [split; [lia|]|].
        + intros p Hp. rewrite G2', E2' by exact Hp. reflexivity.
        + intros i c Hi Hc. rewrite G3, E3 by assumption. cbn [lsum].
          rewrite (sum_ext K ni (fun j => (snd B i j + lsum Bs (fun B0 => snd B0 i j)) * get x (j * mu + c))
                     (fun j => snd B i j * get x (j * mu + c) + lsum Bs (fun B0 => snd B0 i j) * get x (j * mu + c))) by (intros; ring).
          rewrite sum_add. ring. }
    destruct (G y Hy) as (y' & G1 & G2 & G3); [intros; apply H0; assumption|]. exists y'. split; [exact G1|]. split; [exact G2|].
    intros i c Hi Hc. rewrite G3, H0 by assumption.
    rewrite (sum_ext K ni _ (fun j => M i j * get x (j * mu + c))) by (intros j Hj; rewrite HM by assumption; reflexivity). ring.
  Qed.
End D.
