(** * Proofs about the ownership of matrix buffers. *)

From Coq Require Import List Arith Bool Lia.
From Verif Require Import OwnModel OwnSpec.
Import ListNotations.

Section OwnProofs.
  Context {T : Type}.
  Notation state := (state T).
  Notation heap := (heap T).

  Definition b2n (b : bool) : nat := if b then 1 else 0.
  Definition st (h : heap) (a : nat) : nat := match nth_error h a with Some (Some _) => 1 | _ => 0 end.
  Definition fl (l : list (option mx)) (a : nat) : nat :=
    length (filter (fun o => match o with Some m => owns m a | None => false end) l).
  Definition ob (o : option mx) (a : nat) : nat := match o with Some m => b2n (owns m a) | None => 0 end.

  Lemma set_nth_length : forall A (l : list A) i a, length (set_nth l i a) = length l.
  Proof. induction l as [|x l IH]; intros [|i] a; cbn; auto. Qed.
  Lemma nth_set_nth : forall A (l : list A) i a j,
    nth_error (set_nth l i a) j = if (j =? i) && (i <? length l) then Some a else nth_error l j.
  Proof.
    induction l as [|x l IH]; intros i a j.
    - cbn [set_nth length]. replace (i <? 0) with false by (symmetry; apply Nat.ltb_ge; lia). rewrite andb_false_r. destruct j; reflexivity.
    - destruct i as [|i], j as [|j]; cbn [set_nth nth_error]; try reflexivity. rewrite IH. reflexivity.
  Qed.
  Lemma fl_cons : forall o l a, fl (o :: l) a = ob o a + fl l a.
  Proof. intros [m|] l a; unfold fl; cbn [filter ob]; [destruct (owns m a)|]; reflexivity. Qed.
  Lemma fl_app : forall l1 l2 a, fl (l1 ++ l2) a = fl l1 a + fl l2 a.
  Proof. induction l1 as [|o l1 IH]; intros l2 a; cbn [app]; [reflexivity|]. rewrite !fl_cons, IH. lia. Qed.
  Lemma fl_set : forall l i o o' a, nth_error l i = Some o -> fl (set_nth l i o') a + ob o a = fl l a + ob o' a.
  Proof.
    induction l as [|x l IH]; intros [|i] o o' a E; try discriminate; cbn [set_nth nth_error] in *.
    - injection E as ->. rewrite !fl_cons. lia.
    - rewrite !fl_cons. specialize (IH i o o' a E). lia.
  Qed.
  Lemma owners_eq : forall s a, owners s a = fl (s_objs T s) a + count_occ Nat.eq_dec (s_user T s) a.
  Proof. reflexivity. Qed.
  Lemma count_remove : forall l a b, count_occ Nat.eq_dec (remove Nat.eq_dec a l) b = if a =? b then 0 else count_occ Nat.eq_dec l b.
  Proof.
    induction l as [|x l IH]; intros a b; cbn [remove count_occ]; [destruct (a =? b); reflexivity|].
    destruct (Nat.eq_dec a x) as [->|Ne].
    - rewrite IH. destruct (x =? b) eqn:E; [reflexivity|]. apply Nat.eqb_neq in E. destruct (Nat.eq_dec x b); [congruence|reflexivity].
    - cbn [count_occ]. rewrite IH. destruct (a =? b) eqn:E; [|reflexivity]. apply Nat.eqb_eq in E. subst b. destruct (Nat.eq_dec x a); [congruence|reflexivity].
  Qed.

  (** ** The heap operations *)
  Definition heap_le (h h' : heap) : Prop :=
    length h <= length h' /\ forall a buf', a < length h -> nth_error h' a = Some (Some buf') -> exists buf, nth_error h a = Some (Some buf) /\ length buf = length buf'.
  Lemma heap_le_refl : forall h, heap_le h h.
  Proof. intros h. split; [lia|]. intros a buf' _ E. exists buf'. auto. Qed.
  Lemma heap_le_trans : forall h1 h2 h3, heap_le h1 h2 -> heap_le h2 h3 -> heap_le h1 h3.
  Proof.
    intros h1 h2 h3 [L1 H1] [L2 H2]. split; [lia|]. intros a b3 Ha E3.
    destruct (H2 a b3 ltac:(lia) E3) as (b2 & E2 & Q2). destruct (H1 a b2 Ha E2) as (b1 & E1 & Q1). exists b1. split; [exact E1|lia].
  Qed.
  Lemma st_le_1 : forall h a, st h a <= 1.
  Proof. intros h a. unfold st. destruct (nth_error h a) as [[b|]|]; lia. Qed.
  Lemma st_live : forall h a, st h a = 1 <-> exists buf, nth_error h a = Some (Some buf).
  Proof.
    intros h a. unfold st. destruct (nth_error h a) as [[b|]|]; split; intros H; try discriminate; try reflexivity; try (destruct H; discriminate).
    exists b. reflexivity.
  Qed.
  Lemma new_ok : forall (h : heap) buf, heap_le h (h ++ [Some buf]) /\ nth_error (h ++ [Some buf]) (length h) = Some (Some buf) /\
    (forall a, a <> length h -> nth_error (h ++ [Some buf]) a = nth_error h a) /\
    (forall a, st (h ++ [Some buf]) a = st h a + b2n (a =? length h)).
  Proof.
    intros h buf.
    assert (E1 : nth_error (h ++ [Some buf]) (length h) = Some (Some buf)) by (rewrite nth_error_app2 by lia; rewrite Nat.sub_diag; reflexivity).
    assert (E2 : forall a, a <> length h -> nth_error (h ++ [Some buf]) a = nth_error h a).
    { intros a Ha. destruct (lt_dec a (length h)) as [L|L]; [apply nth_error_app1; exact L|].
      rewrite (proj2 (nth_error_None h a)) by lia. apply nth_error_None. rewrite app_length. cbn. lia. }
    split; [|split; [exact E1|split; [exact E2|]]].
    - split; [rewrite app_length; lia|]. intros a b Ha E. rewrite E2 in E by lia. exists b. auto.
    - intros a. unfold st. destruct (Nat.eqb_spec a (length h)) as [->|Ne].
      + rewrite E1, (proj2 (nth_error_None h (length h))) by lia. reflexivity.
      + rewrite E2 by exact Ne. cbn. lia.
  Qed.
  Lemma delete_ok : forall (h : heap) a buf, nth_error h a = Some (Some buf) ->
    delete T h (Some (a, 0)) = Some (set_nth h a None) /\ heap_le h (set_nth h a None) /\
    (forall b, nth_error (set_nth h a None) b = if b =? a then Some None else nth_error h b) /\
    (forall b, st (set_nth h a None) b + b2n (b =? a) = st h b).
  Proof.
    intros h a buf E. assert (La : a < length h) by (apply nth_error_Some; congruence).
    assert (Q : forall b, nth_error (set_nth h a None) b = if b =? a then Some None else nth_error h b).
    { intros b. rewrite nth_set_nth. replace (a <? length h) with true by (symmetry; apply Nat.ltb_lt; exact La). rewrite andb_true_r. reflexivity. }
    split; [unfold delete; rewrite E; reflexivity|]. split; [|split; [exact Q|]].
    - split; [rewrite set_nth_length; lia|]. intros b buf' Hb E'. rewrite Q in E'. destruct (b =? a); [discriminate|]. exists buf'. auto.
    - intros b. unfold st. rewrite Q. destruct (Nat.eqb_spec b a) as [->|Ne]; [rewrite E; reflexivity|cbn; lia].
  Qed.
  Lemma write_ok : forall (h : heap) a o buf v, nth_error h a = Some (Some buf) -> o + length v <= length buf ->
    exists h', write_n T h (Some (a, o)) v = Some h' /\ heap_le h h' /\ (forall b, st h' b = st h b) /\ length h' = length h /\
      (forall b, b <> a -> nth_error h' b = nth_error h b) /\
      exists buf', nth_error h' a = Some (Some buf') /\ length buf' = length buf /\
        forall k, nth_error buf' k = if (o <=? k) && (k <? o + length v) then nth_error v (k - o) else nth_error buf k.
  Proof.
    intros h a o buf v E Hl. assert (La : a < length h) by (apply nth_error_Some; congruence). unfold write_n.
    destruct (length v =? 0) eqn:E0.
    - apply Nat.eqb_eq in E0. exists h. split; [reflexivity|]. split; [apply heap_le_refl|]. split; [reflexivity|]. split; [reflexivity|]. split; [reflexivity|].
      exists buf. split; [exact E|]. split; [reflexivity|]. intros k. destruct (Nat.leb_spec o k); [|reflexivity]. destruct (Nat.ltb_spec k (o + length v)); [lia|reflexivity].
    - rewrite E. rewrite (proj2 (Nat.leb_le _ _) Hl).
      set (nb := firstn o buf ++ v ++ skipn (o + length v) buf).
      assert (Lf : length (firstn o buf) = o) by (rewrite firstn_length; lia).
      assert (Ln : length nb = length buf) by (unfold nb; rewrite !app_length, skipn_length, Lf; lia).
      assert (Q : forall b, nth_error (set_nth h a (Some nb)) b = if b =? a then Some (Some nb) else nth_error h b).
      { intros b. rewrite nth_set_nth. replace (a <? length h) with true by (symmetry; apply Nat.ltb_lt; exact La). rewrite andb_true_r. reflexivity. }
      exists (set_nth h a (Some nb)). split; [reflexivity|]. split; [|split; [|split; [apply set_nth_length|split]]].
      + split; [rewrite set_nth_length; lia|]. intros b buf' Hb E'. rewrite Q in E'. destruct (Nat.eqb_spec b a) as [->|Ne].
        * injection E' as <-. exists buf. split; [exact E|lia].
        * exists buf'. auto.
      + intros b. unfold st. rewrite Q. destruct (Nat.eqb_spec b a) as [->|Ne]; [rewrite E; reflexivity|reflexivity].
      + intros b Hb. rewrite Q. apply Nat.eqb_neq in Hb. rewrite Hb. reflexivity.
      + exists nb. split; [rewrite Q, Nat.eqb_refl; reflexivity|]. split; [exact Ln|]. intros k. unfold nb.
        destruct (Nat.leb_spec o k) as [L|L]; cbn [andb].
        * destruct (Nat.ltb_spec k (o + length v)) as [M|M].
          -- rewrite nth_error_app2 by lia. rewrite Lf, nth_error_app1 by lia. reflexivity.
          -- rewrite nth_error_app2 by lia. rewrite Lf, nth_error_app2 by lia.
             assert (SK : forall (l : list T) n j, nth_error (skipn n l) j = nth_error l (n + j)).
             { induction l as [|x l IHl]; intros [|n] j; cbn [skipn Nat.add nth_error]; try reflexivity; [destruct j; reflexivity|apply IHl]. }
             rewrite SK. f_equal. lia.
        * rewrite nth_error_app1 by lia.
          assert (FK : forall (l : list T) n j, j < n -> nth_error (firstn n l) j = nth_error l j).
          { induction l as [|x l IHl]; intros [|n] [|j] Hj; cbn; try reflexivity; try lia. apply IHl. lia. }
          apply FK. exact L.
  Qed.
  Lemma read_ok : forall (h : heap) a o buf n, nth_error h a = Some (Some buf) -> o + n <= length buf ->
    exists v, read_n T h (Some (a, o)) n = Some v /\ length v = n /\ forall k, k < n -> nth_error v k = nth_error buf (o + k).
  Proof.
    intros h a o buf n E Hl. unfold read_n. destruct (Nat.eqb_spec n 0) as [->|N0].
    - exists []. split; [reflexivity|]. split; [reflexivity|]. intros k Hk. lia.
    - rewrite E, (proj2 (Nat.leb_le _ _) Hl). exists (firstn n (skipn o buf)). split; [reflexivity|].
      split; [rewrite firstn_length, skipn_length; lia|]. intros k Hk.
      assert (SK : forall (l : list T) m j, nth_error (skipn m l) j = nth_error l (m + j)).
      { induction l as [|x l IHl]; intros [|m] j; cbn [skipn Nat.add nth_error]; try reflexivity; [destruct j; reflexivity|apply IHl]. }
      assert (FK : forall (l : list T) m j, j < m -> nth_error (firstn m l) j = nth_error l j).
      { induction l as [|x l IHl]; intros [|m] [|j] Hj; cbn; try reflexivity; try lia. apply IHl. lia. }
      rewrite FK by exact Hk. apply SK.
  Qed.
  Lemma read_0 : forall (h : heap) p, read_n T h p 0 = Some [].
  Proof. reflexivity. Qed.
  Lemma write_0 : forall (h : heap) p, write_n T h p [] = Some h.
  Proof. reflexivity. Qed.

  (** ** The invariant *)
  Definition obj_ok (h : heap) (m : mx) : Prop :=
    match x_data m with
    | None => True
    | Some (a, o) => a < length h /\ (x_own m = true -> o = 0) /\ forall buf, nth_error h a = Some (Some buf) -> o + x_size m <= length buf
    end.
  Definition inv (s : state) : Prop := one_owner s /\ forall i m, is_obj s i m -> obj_ok (s_heap T s) m.

  Lemma obj_ok_le : forall h h' m, heap_le h h' -> obj_ok h m -> obj_ok h' m.
  Proof.
    intros h h' m [L H] Hm. unfold obj_ok in *. destruct (x_data m) as [[a o]|]; [|exact I]. destruct Hm as (Ha & Ho & Hs).
    split; [lia|]. split; [exact Ho|]. intros buf' E. destruct (H a buf' Ha E) as (buf & E1 & Q). specialize (Hs buf E1). lia.
  Qed.
  Lemma obj_is : forall s i m, is_obj s i m -> obj T s i = Some m.
  Proof. intros s i m H. unfold obj. rewrite H. reflexivity. Qed.

  (** An owning matrix with a buffer: the buffer is allocated. *)
  Lemma fl_ge : forall l i m a, nth_error l i = Some (Some m) -> owns m a = true -> 1 <= fl l a.
  Proof.
    induction l as [|x l IH]; intros [|i] m a E H; try discriminate; rewrite fl_cons; cbn [nth_error] in E.
    - injection E as ->. cbn [ob]. rewrite H. cbn. lia.
    - specialize (IH i m a E H). lia.
  Qed.
  Lemma own_live : forall s i m a o, inv s -> is_obj s i m -> x_data m = Some (a, o) -> x_own m = true -> o = 0 /\ exists buf, nth_error (s_heap T s) a = Some (Some buf).
  Proof.
    intros s i m a o [H1 H2] Hm Ed Eo. pose proof (H2 i m Hm) as Q. unfold obj_ok in Q. rewrite Ed in Q. destruct Q as (_ & Q & _). split; [auto|].
    apply st_live. specialize (H1 a). rewrite owners_eq in H1. fold (st (s_heap T s) a) in H1.
    assert (G : 1 <= fl (s_objs T s) a) by (apply (fl_ge _ i m); [exact Hm|]; unfold owns; rewrite Ed, Eo, Nat.eqb_refl; reflexivity).
    pose proof (st_le_1 (s_heap T s) a). lia.
  Qed.
  (** delete[] of what an object owns. *)
  Lemma drop_ok : forall s i m, inv s -> is_obj s i m ->
    exists h, (if x_own m then delete T (s_heap T s) (x_data m) else Some (s_heap T s)) = Some h /\ heap_le (s_heap T s) h /\
      (forall a, st h a + b2n (owns m a) = st (s_heap T s) a) /\
      forall b, owns m b = false -> nth_error h b = nth_error (s_heap T s) b.
  Proof.
    intros s i m HI Hm. unfold owns. destruct (x_own m) eqn:Eo; [|exists (s_heap T s); split; [reflexivity|]; split; [apply heap_le_refl|]; split; [|reflexivity]; intros a; destruct (x_data m) as [[b o]|]; cbn; lia].
    destruct (x_data m) as [[b o]|] eqn:Ed.
    - destruct (own_live s i m b o HI Hm Ed Eo) as (-> & buf & E). destruct (delete_ok _ _ _ E) as (D1 & D2 & D3 & D4).
      exists (set_nth (s_heap T s) b None). split; [exact D1|]. split; [exact D2|]. split; [exact D4|].
      cbn [andb]. intros c Hc. rewrite D3, Hc. reflexivity.
    - exists (s_heap T s). split; [reflexivity|]. split; [apply heap_le_refl|]. split; [intros a; cbn; lia|reflexivity].
  Qed.

  (** ** How the invariant is carried over *)
  Lemma inv_put : forall s i m m' h u, inv s -> is_obj s i m -> heap_le (s_heap T s) h -> obj_ok h m' ->
    (forall a, count_occ Nat.eq_dec u a + b2n (owns m' a) + st (s_heap T s) a = count_occ Nat.eq_dec (s_user T s) a + b2n (owns m a) + st h a) ->
    inv (mkState T h (set_nth (s_objs T s) i (Some m')) u).
  Proof.
    intros s i m m' h u [H1 H2] Hm Hle Hok Hc. split.
    - intros a. rewrite owners_eq. cbn [s_objs s_user s_heap]. fold (st h a). specialize (H1 a). rewrite owners_eq in H1. fold (st (s_heap T s) a) in H1.
      pose proof (fl_set (s_objs T s) i (Some m) (Some m') a Hm) as F. cbn [ob] in F. specialize (Hc a). lia.
    - intros j n. unfold is_obj. cbn [s_objs s_heap]. rewrite nth_set_nth. destruct ((j =? i) && (i <? length (s_objs T s))).
      + intros E. injection E as <-. exact Hok.
      + intros E. apply (obj_ok_le _ _ _ Hle). exact (H2 j n E).
  Qed.
  Lemma inv_add : forall s m' h, inv s -> heap_le (s_heap T s) h -> obj_ok h m' ->
    (forall a, b2n (owns m' a) + st (s_heap T s) a = st h a) -> inv (construct T s h m').
  Proof.
    intros s m' h [H1 H2] Hle Hok Hc. unfold construct. split.
    - intros a. rewrite owners_eq. cbn [s_objs s_user s_heap]. fold (st h a). specialize (H1 a). rewrite owners_eq in H1. fold (st (s_heap T s) a) in H1.
      rewrite fl_app, fl_cons. cbn [ob]. change (fl [] a) with 0. specialize (Hc a). lia.
    - intros j n. unfold is_obj. cbn [s_objs s_heap]. intros E. destruct (lt_dec j (length (s_objs T s))) as [L|L].
      + rewrite nth_error_app1 in E by exact L. apply (obj_ok_le _ _ _ Hle). exact (H2 j n E).
      + rewrite nth_error_app2 in E by lia. destruct (j - length (s_objs T s)) as [|k]; cbn in E; [injection E as <-; exact Hok|destruct k; discriminate].
  Qed.
  Lemma usable_room : forall s i m, inv s -> is_obj s i m -> usable s m -> 0 < x_size m ->
    exists a o buf, x_data m = Some (a, o) /\ nth_error (s_heap T s) a = Some (Some buf) /\ o + x_size m <= length buf.
  Proof.
    intros s i m [_ H2] Hm [E|(a & o & buf & E1 & E2)] Hs; [lia|]. exists a, o, buf. split; [exact E1|]. split; [exact E2|].
    specialize (H2 i m Hm). unfold obj_ok in H2. rewrite E1 in H2. apply H2. exact E2.
  Qed.
  Lemma usable_read : forall s i m, inv s -> is_obj s i m -> usable s m ->
    exists v, read_n T (s_heap T s) (x_data m) (x_size m) = Some v /\ length v = x_size m /\
      (x_size m = 0 \/ exists a o buf, x_data m = Some (a, o) /\ nth_error (s_heap T s) a = Some (Some buf) /\
         forall k, k < x_size m -> nth_error buf (o + k) = nth_error v k).
  Proof.
    intros s i m HI Hm Hu. destruct (Nat.eq_dec (x_size m) 0) as [E0|E0].
    - rewrite E0. exists []. split; [reflexivity|]. split; [reflexivity|left; reflexivity].
    - destruct (usable_room s i m HI Hm Hu ltac:(lia)) as (a & o & buf & E1 & E2 & E3). destruct (read_ok _ a o buf (x_size m) E2 E3) as (v & V1 & V2 & V3).
      exists v. rewrite E1. split; [exact V1|]. split; [exact V2|]. right. exists a, o, buf. split; [reflexivity|]. split; [exact E2|].
      intros k Hk. symmetry. apply V3. exact Hk.
  Qed.
  Lemma usable_write : forall s i m v, inv s -> is_obj s i m -> usable s m -> length v = x_size m ->
    exists h, write_n T (s_heap T s) (x_data m) v = Some h /\ heap_le (s_heap T s) h /\ (forall a, st h a = st (s_heap T s) a) /\
      (forall b, (forall a o, x_data m = Some (a, o) -> b <> a) -> nth_error h b = nth_error (s_heap T s) b) /\
      (x_size m = 0 \/ exists a o buf, x_data m = Some (a, o) /\ nth_error h a = Some (Some buf) /\
         forall k, k < x_size m -> nth_error buf (o + k) = nth_error v k).
  Proof.
    intros s i m v HI Hm Hu Hv. destruct (Nat.eq_dec (x_size m) 0) as [E0|E0].
    - destruct v as [|x v]; [|cbn in Hv; lia]. exists (s_heap T s). split; [reflexivity|]. split; [apply heap_le_refl|]. split; [reflexivity|]. split; [reflexivity|left; exact E0].
    - destruct (usable_room s i m HI Hm Hu ltac:(lia)) as (a & o & buf & E1 & E2 & E3).
      destruct (write_ok _ a o buf v E2 ltac:(lia)) as (h & W1 & W2 & W3 & _ & W4 & buf' & W5 & W6 & W7).
      exists h. rewrite E1. split; [exact W1|]. split; [exact W2|]. split; [exact W3|]. split; [intros b Hb; apply W4; exact (Hb a o eq_refl)|].
      right. exists a, o, buf'. split; [reflexivity|]. split; [exact W5|]. intros k Hk. rewrite W7.
      replace (o <=? o + k) with true by (symmetry; apply Nat.leb_le; lia). replace (o + k <? o + length v) with true by (symmetry; apply Nat.ltb_lt; lia).
      cbn [andb]. f_equal. lia.
  Qed.
  (** A fresh block has no owner yet. *)
  Lemma owns_same : forall m m' a, x_data m = x_data m' -> x_own m = x_own m' -> owns m a = owns m' a.
  Proof. intros m m' a E1 E2. unfold owns. rewrite E1, E2. reflexivity. Qed.
  Lemma fresh_ok : forall (h : heap) r c v, length v = r * c -> obj_ok (h ++ [Some v]) (mkMx r c (Some (length h, 0)) true) /\
    forall a, owns (mkMx r c (Some (length h, 0)) true) a = (a =? length h).
  Proof.
    intros h r c v Hv. split.
    - unfold obj_ok. cbn [x_data x_own x_size]. split; [rewrite app_length; cbn; lia|]. split; [reflexivity|]. intros buf E.
      destruct (new_ok h v) as (_ & N & _). rewrite N in E. injection E as <-. unfold x_size. cbn. lia.
    - intros a. unfold owns. cbn [x_data x_own andb]. reflexivity.
  Qed.
End OwnProofs.
