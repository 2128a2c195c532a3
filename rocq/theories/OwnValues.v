(** * What the operations do to the entries, and the independence of copies. *)

From Coq Require Import List Arith Bool Lia.
From Verif Require Import OwnModel OwnSpec OwnProofs OwnStep.
Import ListNotations.

Section OwnValues.
  Context {T : Type}.
  Notation state := (state T).
  Notation heap := (heap T).

  Lemma is_put : forall (s : state) h i m u, (exists n, is_obj s i n) -> is_obj (mkState T h (set_nth (s_objs T s) i (Some m)) u) i m.
  Proof.
    intros s h i m u [n Hn]. unfold is_obj in *. cbn [s_objs]. rewrite nth_set_nth, Nat.eqb_refl.
    replace (i <? length (s_objs T s)) with true; [reflexivity|]. symmetry. apply Nat.ltb_lt, nth_error_Some. congruence.
  Qed.
  Lemma is_put_other : forall (s : state) h i m u j n, i <> j -> is_obj (mkState T h (set_nth (s_objs T s) i (Some m)) u) j n <-> is_obj s j n.
  Proof.
    intros s h i m u j n Hij. unfold is_obj. cbn [s_objs]. rewrite nth_set_nth. replace (j =? i) with false by (symmetry; apply Nat.eqb_neq; congruence). reflexivity.
  Qed.
  Lemma is_new : forall (s : state) h m, is_obj (construct T s h m) (length (s_objs T s)) m.
  Proof. intros s h m. unfold is_obj, construct. cbn [s_objs]. rewrite nth_error_app2 by lia. rewrite Nat.sub_diag. reflexivity. Qed.
  Lemma is_old : forall (s : state) h m i n, is_obj s i n -> is_obj (construct T s h m) i n.
  Proof.
    intros s h m i n Hn. unfold is_obj, construct in *. cbn [s_objs]. rewrite nth_error_app1; [exact Hn|]. apply nth_error_Some. congruence.
  Qed.
  Lemma is_obj_fun : forall (s : state) i m n, is_obj s i m -> is_obj s i n -> m = n.
  Proof. unfold is_obj. intros s i m n E1 E2. rewrite E1 in E2. injection E2. auto. Qed.

  (** What a usable matrix holds, and that [contents] is what is read. *)
  Lemma contents_usable : forall (s : state) i r c v m, contents s i r c v -> is_obj s i m -> x_rows m = r /\ x_cols m = c /\ usable s m.
  Proof.
    intros s i r c v m (m' & Hm' & Er & Ec & Lv & H) Hm. rewrite (is_obj_fun s i m m' Hm Hm'). split; [exact Er|]. split; [exact Ec|].
    destruct H as [H|(a & o & buf & E1 & E2 & _)]; [left; unfold x_size; rewrite Er, Ec; exact H|right; exists a, o, buf; auto].
  Qed.
  Lemma list_ext : forall (l l' : list T), length l = length l' -> (forall k, k < length l -> nth_error l k = nth_error l' k) -> l = l'.
  Proof.
    induction l as [|x l IH]; intros [|y l'] E H; try discriminate; [reflexivity|]. pose proof (H 0 ltac:(cbn; lia)) as Q. cbn in Q. injection Q as <-.
    f_equal. apply IH; [cbn in E; lia|]. intros k Hk. exact (H (S k) ltac:(cbn; lia)).
  Qed.
  Lemma contents_read : forall (s : state) i r c v m, inv s -> contents s i r c v -> is_obj s i m -> read_n T (s_heap T s) (x_data m) (x_size m) = Some v.
  Proof.
    intros s i r c v m HI HC Hm. destruct (contents_usable s i r c v m HC Hm) as (Er & Ec & Hu).
    destruct (usable_read s i m HI Hm Hu) as (w & W1 & W2 & W3). rewrite W1. f_equal.
    destruct HC as (m' & Hm' & _ & _ & Lv & H). rewrite <- (is_obj_fun s i m m' Hm Hm') in *. assert (Es : x_size m = r * c) by (unfold x_size; congruence).
    apply list_ext; [lia|]. intros k Hk. destruct H as [H|(a & o & buf & E1 & E2 & E3)]; [lia|]. destruct W3 as [W3|(a' & o' & buf' & F1 & F2 & F3)]; [lia|].
    rewrite E1 in F1. injection F1 as <- <-. unfold live in E2. rewrite E2 in F2. injection F2 as <-. rewrite <- F3, <- E3 by lia. reflexivity.
  Qed.

  Lemma val_fresh : forall (s : state) h v r c, length v = r * c -> contents (construct T s (h ++ [Some v]) (mkMx r c (Some (length h, 0)) true)) (length (s_objs T s)) r c v.
  Proof.
    intros s h v r c Lv. exists (mkMx r c (Some (length h, 0)) true). split; [apply is_new|]. split; [reflexivity|]. split; [reflexivity|]. split; [exact Lv|].
    right. exists (length h), 0, v. split; [reflexivity|]. split; [apply new_ok|]. reflexivity.
  Qed.
  Lemma val_make : forall (s s' : state) r c v, step T s (Make T r c v) = Some s' -> contents s' (length (s_objs T s)) r c (repeat v (r * c)).
  Proof. intros s s' r c v E. injection E as <-. apply val_fresh, repeat_length. Qed.
  Lemma val_copy : forall (s s' : state) i r c v, inv s -> contents s i r c v -> step T s (Copy T i) = Some s' -> contents s' (length (s_objs T s)) r c v.
  Proof.
    intros s s' i r c v HI HC E. pose proof HC as (m & Hm & Er & Ec & Lv & _). cbn [step] in E. unfold op_copy in E. rewrite (obj_is _ _ _ Hm) in E. cbn [bind] in E.
    rewrite (contents_read s i r c v m HI HC Hm) in E. cbn [bind new] in E. injection E as <-. rewrite Er, Ec. apply val_fresh. exact Lv.
  Qed.
  Lemma val_copy_assign : forall (s s' : state) i j r c v, inv s -> contract s (CopyAssign T i j) -> contents s j r c v -> step T s (CopyAssign T i j) = Some s' -> contents s' i r c v.
  Proof.
    intros s s' i j r c v HI (m & n & Hm & Hn & Hu & Hs & Hd) HC E. cbn [step] in E. unfold op_copy_assign in E. rewrite (obj_is _ _ _ Hm), (obj_is _ _ _ Hn) in E. cbn [bind] in E.
    destruct (Nat.eqb_spec i j) as [<-|Nij]; [injection E as <-; exact HC|]. pose proof (contents_read s j r c v n HI HC Hn) as V1.
    pose proof (contents_usable s j r c v n HC Hn) as (Er & Ec & _). pose proof HC as (_ & _ & _ & _ & Lv & _).
    assert (Sn : x_size n = r * c) by (unfold x_size; congruence).
    destruct (Nat.eqb_spec (x_size m) (x_size n)) as [Es|Ns].
    - destruct (Hs Nij Es) as [Hum Hap]. destruct (usable_write s i m v HI Hm Hum ltac:(lia)) as (h & W1 & W2 & W3 & W4 & W5).
      rewrite (copy_n_apart s m n v h Es Hap V1 W1) in E. cbn [bind] in E. injection E as <-. rewrite put_eq.
      exists (mkMx (x_rows n) (x_cols n) (x_data m) (x_own m)). split; [apply is_put; exists m; exact Hm|]. cbn [x_rows x_cols x_data]. split; [exact Er|]. split; [exact Ec|]. split; [exact Lv|].
      destruct W5 as [W5|(a & o & buf & E1 & E2 & E3)]; [left; lia|]. right. exists a, o, buf. split; [exact E1|]. split; [exact E2|]. intros k Hk. apply E3. lia.
    - destruct (drop_ok s i m HI Hm) as (h & D1 & D2 & D3 & D4). rewrite D1 in E. cbn [bind] in E.
      rewrite (read_same (s_heap T s) h) in E.
      2: { intros a o Ea. apply D4. apply (not_owned s i j m n a o HI Hm Hn Nij Ea). intros Eo. exact (Hd Nij Ns Eo a o Ea). }
      rewrite V1 in E. cbn [bind new] in E. injection E as <-. rewrite put_eq.
      exists (mkMx (x_rows n) (x_cols n) (Some (length h, 0)) true). split; [apply is_put; exists m; exact Hm|]. cbn [x_rows x_cols x_data]. split; [exact Er|]. split; [exact Ec|]. split; [exact Lv|].
      right. exists (length h), 0, v. split; [reflexivity|]. split; [apply new_ok|reflexivity].
  Qed.
  Lemma val_move : forall (s s' : state) i r c v, contents s i r c v -> step T s (Move T i) = Some s' -> contents s' (length (s_objs T s)) r c v.
  Proof.
    intros s s' i r c v (m & Hm & Er & Ec & Lv & H) E. cbn [step] in E. unfold op_move in E. rewrite (obj_is _ _ _ Hm) in E. cbn [bind] in E. injection E as <-.
    exists m. split; [|auto]. unfold is_obj. cbn [construct put s_objs]. rewrite nth_error_app2; rewrite set_nth_length; [|lia]. rewrite Nat.sub_diag. reflexivity.
  Qed.
  Lemma val_move_assign : forall (s s' : state) i j r c v, inv s -> contents s j r c v ->
    (forall m n a o, is_obj s i m -> is_obj s j n -> x_own n = false -> x_data n = Some (a, o) -> owns m a = false) ->
    step T s (MoveAssign T i j) = Some s' -> contents s' i r c v.
  Proof.
    intros s s' i j r c v HI HC Hd E. pose proof HC as (n & Hn & Er & Ec & Lv & H). cbn [step] in E. unfold op_move_assign in E.
    destruct (obj T s i) as [m|] eqn:Em; [|discriminate]. cbn [bind] in E.
    assert (Hm : is_obj s i m) by (unfold obj in Em; unfold is_obj; destruct (nth_error (s_objs T s) i) as [[q|]|]; congruence).
    rewrite (obj_is _ _ _ Hn) in E. cbn [bind] in E. destruct (Nat.eqb_spec i j) as [<-|Nij]; [injection E as <-; exact HC|].
    destruct (drop_ok s i m HI Hm) as (h & D1 & D2 & D3 & D4). rewrite D1 in E. cbn [bind] in E. injection E as <-.
    exists n. split; [|split; [exact Er|split; [exact Ec|split; [exact Lv|]]]].
    - unfold put at 1. apply is_put_other; [congruence|]. rewrite put_eq. apply is_put. exists m. exact Hm.
    - destruct H as [H|(a & o & buf & E1 & E2 & E3)]; [left; exact H|]. right. exists a, o, buf. split; [exact E1|]. split; [|exact E3].
      unfold live in *. cbn [put s_heap]. rewrite D4; [exact E2|]. apply (not_owned s i j m n a o HI Hm Hn Nij E1). intros Eo. exact (Hd m n a o Hm Hn Eo E1).
  Qed.
  Lemma nth_repeat : forall (v : T) n k, k < n -> nth_error (repeat v n) k = Some v.
  Proof. induction n as [|n IHn]; intros [|k] Hk; cbn; try lia; try reflexivity. apply IHn. lia. Qed.
  Lemma val_resize : forall (s s' : state) i r c v, inv s -> contract s (Resize T i r c v) -> step T s (Resize T i r c v) = Some s' -> contents s' i r c (repeat v (r * c)).
  Proof.
    intros s s' i r c v HI (m & Hm & Hs) E. destruct (resize_cases s i r c v m HI Hm Hs) as (h & p & E' & _ & _ & _ & _ & H). rewrite E' in E. injection E as <-.
    exists (mkMx r c p true). split; [rewrite put_eq; apply is_put; exists m; exact Hm|]. split; [reflexivity|]. split; [reflexivity|]. split; [apply repeat_length|].
    destruct H as [H|(a & o & buf & E1 & E2 & E3)]; [left; exact H|]. right. exists a, o, buf. split; [exact E1|]. split; [exact E2|]. intros k Hk.
    rewrite E3, nth_repeat by exact Hk. reflexivity.
  Qed.
  Lemma val_fill : forall (s s' : state) i r c v w, inv s -> contents s i r c w -> step T s (Fill T i v) = Some s' -> contents s' i r c (repeat v (r * c)).
  Proof.
    intros s s' i r c v w HI HC E. pose proof HC as (m & Hm & Er & Ec & Lv & H). pose proof (contents_usable s i r c w m HC Hm) as (_ & _ & Hu).
    assert (Sm : x_size m = r * c) by (unfold x_size; congruence).
    cbn [step] in E. unfold op_fill in E. rewrite (obj_is _ _ _ Hm) in E. cbn [bind] in E. destruct (Nat.ltb_spec 0 (x_size m)) as [L|L].
    - destruct (usable_write s i m (repeat v (x_size m)) HI Hm Hu (repeat_length _ _)) as (h & W1 & _ & _ & _ & W5). rewrite W1 in E. cbn [bind] in E. injection E as <-.
      exists m. split; [rewrite put_eq; apply is_put; exists m; exact Hm|]. split; [exact Er|]. split; [exact Ec|]. split; [apply repeat_length|].
      rewrite Sm in W5. exact W5.
    - injection E as <-. exists m. split; [exact Hm|]. split; [exact Er|]. split; [exact Ec|]. split; [apply repeat_length|]. left. lia.
  Qed.
  Lemma val_read : forall (s : state) i r c v j k, inv s -> contents s i r c v -> j < r -> k < c ->
    exists a, nth_error v (j + k * r) = Some a /\ op_read T s i j k = Some (a, s).
  Proof.
    intros s i r c v j k HI HC Hj Hk. pose proof HC as (m & Hm & Er & Ec & Lv & H). pose proof (contents_usable s i r c v m HC Hm) as (_ & _ & Hu).
    unfold op_read. rewrite (obj_is _ _ _ Hm). cbn [bind]. pose proof (entry_room m j k ltac:(lia) ltac:(lia)) as R.
    destruct (usable_room s i m HI Hm Hu ltac:(lia)) as (a & o & buf & E1 & E2 & E3).
    unfold entry_ptr. rewrite E1. destruct (read_ok _ a (o + (j + k * x_rows m)) buf 1 E2 ltac:(lia)) as (w & V1 & V2 & V3). rewrite V1. cbn [bind].
    destruct w as [|x w]; [discriminate|]. exists x. split; [|reflexivity]. specialize (V3 0 ltac:(lia)). cbn [nth_error] in V3. rewrite V3.
    destruct H as [H|(a' & o' & buf' & F1 & F2 & F3)]; [nia|]. rewrite E1 in F1. injection F1 as <- <-. unfold live in F2. rewrite E2 in F2. injection F2 as <-.
    rewrite <- F3 by nia. f_equal. rewrite Er. lia.
  Qed.
  Lemma nth_upd : forall (v : list T) i a q, i < length v -> nth_error (set_nth v i a) q = if q =? i then Some a else nth_error v q.
  Proof. intros v i a q Hi. rewrite nth_set_nth. apply Nat.ltb_lt in Hi. rewrite Hi, andb_true_r. reflexivity. Qed.
  Lemma val_write : forall (s s' : state) i r c v j k x, inv s -> contents s i r c v -> j < r -> k < c -> step T s (Write T i j k x) = Some s' ->
    contents s' i r c (firstn (j + k * r) v ++ x :: skipn (S (j + k * r)) v).
  Proof.
    intros s s' i r c v j k x HI HC Hj Hk E. pose proof HC as (m & Hm & Er & Ec & Lv & H). pose proof (contents_usable s i r c v m HC Hm) as (_ & _ & Hu).
    cbn [step] in E. unfold op_write in E. rewrite (obj_is _ _ _ Hm) in E. cbn [bind] in E. pose proof (entry_room m j k ltac:(lia) ltac:(lia)) as R.
    destruct (usable_room s i m HI Hm Hu ltac:(lia)) as (a & o & buf & E1 & E2 & E3).
    unfold entry_ptr in E. rewrite E1 in E. destruct (write_ok _ a (o + (j + k * x_rows m)) buf [x] E2 ltac:(cbn; lia)) as (h & W1 & _ & _ & _ & _ & buf' & W5 & W6 & W7).
    rewrite W1 in E. cbn [bind] in E. injection E as <-.
    assert (B : j + k * r < length v) by nia.
    assert (L2 : length (firstn (j + k * r) v ++ x :: skipn (S (j + k * r)) v) = r * c).
    { rewrite app_length, firstn_length. cbn [length]. rewrite skipn_length. lia. }
    exists m. split; [rewrite put_eq; apply is_put; exists m; exact Hm|]. split; [exact Er|]. split; [exact Ec|]. split; [exact L2|].
    right. exists a, o, buf'. split; [exact E1|]. split; [exact W5|]. intros q Hq. rewrite W7. cbn [length].
    destruct H as [H|(a' & o' & bu & F1 & F2 & F3)]; [lia|]. rewrite E1 in F1. injection F1 as <- <-. unfold live in F2. rewrite E2 in F2. injection F2 as <-.
    rewrite Er. assert (SK : forall (l : list T) n j, nth_error (skipn n l) j = nth_error l (n + j)).
    { induction l as [|y l IHl]; intros [|n] z; cbn [skipn Nat.add nth_error]; try reflexivity; [destruct z; reflexivity|apply IHl]. }
    assert (FK : forall (l : list T) n j, j < n -> nth_error (firstn n l) j = nth_error l j).
    { induction l as [|y l IHl]; intros [|n] [|z] Hz; cbn; try reflexivity; try lia. apply IHl. lia. }
    destruct (lt_eq_lt_dec q (j + k * r)) as [[L| ->]|L].
    - replace (o + (j + k * r) <=? o + q) with false by (symmetry; apply Nat.leb_gt; lia). cbn [andb]. rewrite F3 by lia.
      rewrite nth_error_app1 by (rewrite firstn_length; lia). rewrite FK by exact L. reflexivity.
    - rewrite Nat.leb_refl. replace (o + (j + k * r) <? o + (j + k * r) + 1) with true by (symmetry; apply Nat.ltb_lt; lia). cbn [andb]. rewrite Nat.sub_diag.
      rewrite nth_error_app2 by (rewrite firstn_length; lia). rewrite firstn_length, Nat.min_l by lia. rewrite Nat.sub_diag. reflexivity.
    - replace (o + q <? o + (j + k * r) + 1) with false by (symmetry; apply Nat.ltb_ge; lia). rewrite andb_false_r. rewrite F3 by lia.
      rewrite nth_error_app2 by (rewrite firstn_length; lia). rewrite firstn_length, Nat.min_l by lia.
      destruct (q - (j + k * r)) as [|z] eqn:Ez; [lia|]. cbn [nth_error]. rewrite SK. f_equal. lia.
  Qed.

  (** ** Independence *)
  Definition excl (s : state) (k a : nat) : Prop :=
    (exists m, is_obj s k m /\ x_data m = Some (a, 0) /\ x_own m = true) /\
    forall i n b o, i <> k -> is_obj s i n -> x_data n = Some (b, o) -> b <> a.
  Lemma excl_lt : forall s k a, inv s -> excl s k a -> a < length (s_heap T s).
  Proof. intros s k a [_ H] [(m & Hm & Ed & _) _]. specialize (H k m Hm). unfold obj_ok in H. rewrite Ed in H. apply H. Qed.
  Lemma excl_not_user : forall s k a, inv s -> excl s k a -> ~ In a (s_user T s).
  Proof.
    intros s k a [H1 _] [(m & Hm & Ed & Eo) _] Hin. specialize (H1 a). rewrite owners_eq in H1. fold (st (s_heap T s) a) in H1.
    pose proof (proj1 (count_occ_In Nat.eq_dec _ _) Hin). pose proof (st_le_1 (s_heap T s) a).
    assert (1 <= fl (s_objs T s) a) by (apply (fl_ge _ k m); [exact Hm|]; unfold owns; rewrite Ed, Eo, Nat.eqb_refl; reflexivity). lia.
  Qed.
  Definition same (s s' : state) (k a : nat) : Prop :=
    excl s' k a /\ nth_error (s_heap T s') a = nth_error (s_heap T s) a /\ forall m, is_obj s k m -> is_obj s' k m.
  Lemma same_put : forall (s : state) h i m' u k a, excl s k a -> i <> k -> nth_error h a = nth_error (s_heap T s) a ->
    (forall b o, x_data m' = Some (b, o) -> b <> a) -> same s (mkState T h (set_nth (s_objs T s) i (Some m')) u) k a.
  Proof.
    intros s h i m' u k a [(m & Hm & Ed & Eo) HX] Hik Hh Hd. split; [|split; [exact Hh|intros n Hn; apply is_put_other; [exact Hik|exact Hn]]]. split.
    - exists m. split; [apply is_put_other; [exact Hik|exact Hm]|auto].
    - intros j n b o Hj. unfold is_obj. cbn [s_objs]. rewrite nth_set_nth. destruct ((j =? i) && _).
      + intros E. injection E as <-. apply Hd.
      + intros E. exact (HX j n b o Hj E).
  Qed.
  Lemma same_add : forall (s : state) h m' k a, inv s -> excl s k a -> nth_error h a = nth_error (s_heap T s) a ->
    (forall b o, x_data m' = Some (b, o) -> b <> a) -> same s (construct T s h m') k a.
  Proof.
    intros s h m' k a HI [(m & Hm & Ed & Eo) HX] Hh Hd. split; [|split; [exact Hh|intros n Hn; apply is_old; exact Hn]]. split.
    - exists m. split; [apply is_old; exact Hm|auto].
    - intros j n b o Hj. unfold is_obj, construct. cbn [s_objs]. intros E. destruct (lt_dec j (length (s_objs T s))) as [L|L].
      + rewrite nth_error_app1 in E by exact L. exact (HX j n b o Hj E).
      + rewrite nth_error_app2 in E by lia. destruct (j - length (s_objs T s)) as [|q]; cbn in E; [injection E as <-; apply Hd|destruct q; discriminate].
  Qed.
  Lemma excl_not_owned : forall s k a i m, excl s k a -> i <> k -> is_obj s i m -> owns m a = false.
  Proof.
    intros s k a i m [_ HX] Hik Hm. unfold owns. destruct (x_data m) as [[b o]|] eqn:Ed; [|reflexivity]. pose proof (HX i m b o Hik Hm Ed) as Q.
    replace (a =? b) with false by (symmetry; apply Nat.eqb_neq; congruence). apply andb_false_r.
  Qed.

  Lemma step_same : forall s o s' k a, inv s -> contract s o -> step T s o = Some s' -> excl s k a -> leaves_alone s o k -> same s s' k a.
  Proof.
    intros s o s' k a HI HC E HX [HT HP].
    pose proof (excl_lt s k a HI HX) as La.
    assert (RF : forall s1, excl s1 k a -> same s1 s1 k a) by (intros s1 H1; split; [exact H1|split; [reflexivity|auto]]).
    pose proof HX as [(mk & Hmk & Edk & _) HXX]. destruct (HP mk a 0 Hmk Edk) as [HPa HPu].
    destruct o; cbn [contract targets] in *; cbn [step] in E.
    - injection E as <-. apply same_add; [exact HI|exact HX|reflexivity|discriminate].
    - injection E as <-. apply same_add; [exact HI|exact HX|apply new_ok; lia|]. intros b o Eb. cbn in Eb. injection Eb as <- _. lia.
    - destruct HC as (m & Hm & Hu). unfold op_copy in E. rewrite (obj_is _ _ _ Hm) in E. cbn [bind] in E.
      destruct (usable_read s i m HI Hm Hu) as (v & V1 & _). rewrite V1 in E. cbn [bind new] in E. injection E as <-.
      apply same_add; [exact HI|exact HX|apply new_ok; lia|]. intros b o Eb. cbn in Eb. injection Eb as <- _. lia.
    - destruct HC as (m & n & Hm & Hn & Hu & Hs & Hd). unfold op_copy_assign in E. rewrite (obj_is _ _ _ Hm), (obj_is _ _ _ Hn) in E. cbn [bind] in E.
      assert (Nik : i <> k) by (intros ->; apply HT; left; reflexivity).
      destruct (Nat.eqb_spec i j) as [Eij|Nij]; [injection E as <-; apply RF; exact HX|].
      destruct (usable_read s j n HI Hn Hu) as (v & V1 & V2 & _). destruct (Nat.eqb_spec (x_size m) (x_size n)) as [Es|Ns].
      + destruct (Hs Nij Es) as [Hum Hap]. destruct (usable_write s i m v HI Hm Hum ltac:(lia)) as (h & W1 & W2 & W3 & W4 & _).
        rewrite (copy_n_apart s m n v h Es Hap V1 W1) in E. cbn [bind] in E. injection E as <-. rewrite put_eq. apply same_put; [exact HX|exact Nik| |].
        * apply W4. intros b o Eb Eba. exact (HXX i m b o Nik Hm Eb (eq_sym Eba)).
        * intros b o Eb. exact (HXX i m b o Nik Hm Eb).
      + destruct (drop_ok s i m HI Hm) as (h & D1 & D2 & D3 & D4). rewrite D1 in E. cbn [bind] in E.
        destruct (read_n T h (x_data n) (x_size n)) as [w|]; [|discriminate]. cbn [bind new] in E. injection E as <-. rewrite put_eq. destruct D2 as [D2 _].
        apply same_put; [exact HX|exact Nik| |].
        * destruct (new_ok h w) as (_ & _ & N3 & _). rewrite N3 by lia. apply D4. apply (excl_not_owned s k a i m HX Nik Hm).
        * intros b o Eb. cbn in Eb. injection Eb as <- _. lia.
    - destruct HC as (m & Hm). unfold op_move in E. rewrite (obj_is _ _ _ Hm) in E. cbn [bind] in E. injection E as <-.
      assert (Nik : i <> k) by (intros ->; apply HT; left; reflexivity).
      assert (S1 : same s (put T s (s_heap T s) i (mkMx (x_rows m) (x_cols m) None (x_own m))) k a) by (rewrite put_eq; apply same_put; [exact HX|exact Nik|reflexivity|discriminate]).
      destruct S1 as (X1 & _ & O1). destruct X1 as [(m1 & G1 & G2 & G3) X1].
      split; [|split; [reflexivity|intros q Hq; apply is_old; apply O1; exact Hq]]. split; [exists m1; split; [apply is_old; exact G1|auto]|].
      intros j n b o Hj. unfold is_obj, construct. cbn [s_objs]. intros Q. destruct (lt_dec j (length (s_objs T (put T s (s_heap T s) i (mkMx (x_rows m) (x_cols m) None (x_own m)))))) as [L|L].
      + rewrite nth_error_app1 in Q by exact L. exact (X1 j n b o Hj Q).
      + rewrite nth_error_app2 in Q by lia. destruct (j - _) as [|q]; cbn in Q; [injection Q as <-; exact (HXX i m b o Nik Hm)|destruct q; discriminate].
    - destruct HC as (m & n & Hm & Hn). unfold op_move_assign in E. rewrite (obj_is _ _ _ Hm), (obj_is _ _ _ Hn) in E. cbn [bind] in E.
      assert (Nik : i <> k) by (intros ->; apply HT; left; reflexivity). assert (Njk : j <> k) by (intros ->; apply HT; right; left; reflexivity).
      destruct (Nat.eqb_spec i j) as [Eij|Nij]; [injection E as <-; apply RF; exact HX|].
      destruct (drop_ok s i m HI Hm) as (h & D1 & D2 & D3 & D4). rewrite D1 in E. cbn [bind] in E. injection E as <-.
      assert (S1 : same s (put T s h i n) k a).
      { rewrite put_eq. apply same_put; [exact HX|exact Nik|apply D4; apply (excl_not_owned s k a i m HX Nik Hm)|]. intros b o Eb. exact (HXX j n b o Njk Hn Eb). }
      destruct S1 as (X1 & H1 & O1).
      assert (S2 : same (put T s h i n) (put T (put T s h i n) h j (mkMx (x_rows n) (x_cols n) None (x_own n))) k a).
      { unfold put at 2. apply same_put; [exact X1|exact Njk|reflexivity|discriminate]. }
      destruct S2 as (X2 & H2 & O2). split; [exact X2|]. split; [rewrite H2; exact H1|]. intros q Hq. apply O2, O1. exact Hq.
    - destruct HC as (m & Hm). unfold op_destroy in E. rewrite (obj_is _ _ _ Hm) in E. cbn [bind] in E. rewrite drop_eq in E.
      assert (Nik : i <> k) by (intros ->; apply HT; left; reflexivity).
      destruct (drop_ok s i m HI Hm) as (h & D1 & D2 & D3 & D4). rewrite D1 in E. cbn [bind] in E. injection E as <-.
      assert (G : forall j n, j <> i -> is_obj (mkState T h (set_nth (s_objs T s) i None) (s_user T s)) j n <-> is_obj s j n).
      { intros j n Hj. unfold is_obj. cbn [s_objs]. rewrite nth_set_nth. apply Nat.eqb_neq in Hj. rewrite Hj. reflexivity. }
      split; [|split; [apply D4; apply (excl_not_owned s k a i m HX Nik Hm)|intros n Hn; apply G; [congruence|exact Hn]]].
      destruct HX as [(m1 & G1 & G2 & G3) _]. split; [exists m1; split; [apply G; [congruence|exact G1]|auto]|].
      intros j n b o Hj Q. destruct (Nat.eq_dec j i) as [->|Nji].
      + unfold is_obj in Q. cbn [s_objs] in Q. rewrite nth_set_nth, Nat.eqb_refl in Q. destruct (Nat.ltb_spec i (length (s_objs T s))); [discriminate|].
        exfalso. assert (i < length (s_objs T s)) by (apply nth_error_Some; unfold is_obj in Hm; congruence). lia.
      + apply G in Q; [|exact Nji]. exact (HXX j n b o Hj Q).
    - destruct HC as (m & Hm & Hu). unfold op_fill in E. rewrite (obj_is _ _ _ Hm) in E. cbn [bind] in E.
      assert (Nik : i <> k) by (intros ->; apply HT; left; reflexivity).
      destruct (0 <? x_size m); [|injection E as <-; apply RF; exact HX].
      destruct (usable_write s i m (repeat v (x_size m)) HI Hm Hu (repeat_length _ _)) as (h & W1 & W2 & W3 & W4 & _). rewrite W1 in E. cbn [bind] in E. injection E as <-.
      rewrite put_eq. apply same_put; [exact HX|exact Nik| |intros b o Eb; exact (HXX i m b o Nik Hm Eb)]. apply W4. intros b o Eb Eba. exact (HXX i m b o Nik Hm Eb (eq_sym Eba)).
    - pose proof (ok_read s i j k0 HI HC) as Q. cbn [step] in Q. rewrite Q in E. injection E as <-. apply RF. exact HX.
    - destruct HC as (m & Hm & Hu & Hj & Hk). unfold op_write in E. rewrite (obj_is _ _ _ Hm) in E. cbn [bind] in E.
      assert (Nik : i <> k) by (intros ->; apply HT; left; reflexivity).
      pose proof (entry_room m j k0 Hj Hk) as R. destruct (usable_room s i m HI Hm Hu ltac:(lia)) as (b & o & buf & E1 & E2 & E3).
      unfold entry_ptr in E. rewrite E1 in E. destruct (write_ok _ b (o + (j + k0 * x_rows m)) buf [v] E2 ltac:(cbn; lia)) as (h & W1 & W2 & W3 & W4 & W5 & _).
      rewrite W1 in E. cbn [bind] in E. injection E as <-. rewrite put_eq. apply same_put; [exact HX|exact Nik| |intros b' o' Eb; exact (HXX i m b' o' Nik Hm Eb)].
      apply W5. intros Eba. exact (HXX i m b o Nik Hm E1 (eq_sym Eba)).
    - destruct HC as (m & Hm). unfold op_release in E. rewrite (obj_is _ _ _ Hm) in E. cbn [bind] in E. injection E as <-.
      assert (Nik : i <> k) by (intros ->; apply HT; left; reflexivity). apply same_put; [exact HX|exact Nik|reflexivity|discriminate].
    - destruct HC as (m & Hm & H0 & _). unfold op_assign in E. rewrite (obj_is _ _ _ Hm) in E. cbn [bind] in E.
      assert (Nik : i <> k) by (intros ->; apply HT; left; reflexivity).
      destruct (drop_ok s i m HI Hm) as (h & D1 & D2 & D3 & D4).
      assert (Q : exists h', (if (0 <? x_size m) && x_own m then delete T (s_heap T s) (x_data m) else Some (s_heap T s)) = Some h' /\ nth_error h' a = nth_error (s_heap T s) a).
      { destruct (0 <? x_size m); cbn [andb]; [|exists (s_heap T s); auto]. exists h. split; [exact D1|]. apply D4. apply (excl_not_owned s k a i m HX Nik Hm). }
      destruct Q as (h' & Q1 & Q2). rewrite Q1 in E. cbn [bind] in E. injection E as <-. apply same_put; [exact HX|exact Nik|exact Q2|].
      intros b o Eb. cbn in Eb. injection Eb as ->. exact (HPa i r c (b, o) own eq_refl).
    - destruct HC as (m & Hm & Hs). destruct (resize_cases s i r c v m HI Hm Hs) as (h & p & E' & Q1 & Q2 & Q3 & Q4 & _). cbn [step] in E'. rewrite E' in E. injection E as <-.
      assert (Nik : i <> k) by (intros ->; apply HT; left; reflexivity). rewrite put_eq. apply same_put; [exact HX|exact Nik|apply Q4; [apply (excl_not_owned s k a i m HX Nik Hm)|exact La]|].
      intros b o Eb. cbn in Eb. subst p. intros ->. specialize (Q3 a). unfold owns at 1 in Q3. cbn [x_data x_own andb] in Q3. rewrite Nat.eqb_refl in Q3.
      rewrite (excl_not_owned s k a i m HX Nik Hm) in Q3. cbn [b2n] in Q3.
      destruct (own_live s k mk a 0 HI Hmk Edk) as (_ & buf & El). { destruct HX as [(m1 & G1 & _ & G3) _]. rewrite (is_obj_fun s k mk m1 Hmk G1). exact G3. }
      pose proof (proj2 (st_live (s_heap T s) a) (ex_intro _ buf El)). pose proof (st_le_1 h a). lia.
    - injection E as <-. split; [|split; [cbn [s_heap new]; apply new_ok; lia|intros n Hn; exact Hn]]. split; [exact (proj1 HX)|]. exact HXX.
    - assert (Nau : a0 <> a) by (intros ->; apply HPu; reflexivity). unfold op_user_delete in E.
      destruct (delete T (s_heap T s) (Some (a0, 0))) as [h|] eqn:Ed; [|discriminate]. cbn [bind] in E. injection E as <-.
      assert (Q : nth_error h a = nth_error (s_heap T s) a).
      { unfold delete in Ed. destruct (nth_error (s_heap T s) a0) as [[buf|]|] eqn:Eb; [|discriminate|discriminate]. injection Ed as <-. rewrite nth_set_nth.
        replace (a =? a0) with false by (symmetry; apply Nat.eqb_neq; congruence). reflexivity. }
      split; [|split; [exact Q|intros n Hn; exact Hn]]. split; [exact (proj1 HX)|exact HXX].
  Qed.

  Lemma same_contents : forall s s' k a r c v, same s s' k a -> excl s k a -> contents s k r c v -> contents s' k r c v.
  Proof.
    intros s s' k a r c v (X & Hh & Ho) [(mk & Hmk & Edk & _) _] (m & Hm & Er & Ec & Lv & H). exists m. split; [apply Ho; exact Hm|]. split; [exact Er|]. split; [exact Ec|]. split; [exact Lv|].
    destruct H as [H|(b & o & buf & E1 & E2 & E3)]; [left; exact H|]. right. exists b, o, buf. split; [exact E1|]. split; [|exact E3].
    rewrite (is_obj_fun s k m mk Hm Hmk), Edk in E1. injection E1 as <- <-. unfold live in *. rewrite Hh. exact E2.
  Qed.
  Lemma run_same : forall l s s' k a r c v, inv s -> respects s l -> run T s l = Some s' -> excl s k a -> all_leave_alone s l k -> contents s k r c v -> contents s' k r c v.
  Proof.
    induction l as [|o l IH]; intros s s' k a r c v HI HR E HX HA HC; cbn [run respects all_leave_alone] in *.
    - injection E as <-. exact HC.
    - destruct HR as [HR1 HR2]. destruct HA as [HA1 HA2]. destruct (step_ok s o HI HR1) as (s1 & E1 & HI1). rewrite E1 in E. cbn [bind] in E.
      pose proof (step_same s o s1 k a HI HR1 E1 HX HA1) as S1. pose proof (same_contents s s1 k a r c v S1 HX HC) as C1.
      exact (IH s1 s' k a r c v HI1 (HR2 s1 E1) E (proj1 S1) (HA2 s1 E1) C1).
  Qed.
  (** A matrix that was just made has a buffer of its own. *)
  Lemma excl_fresh : forall s v r c, inv s -> excl (construct T s (s_heap T s ++ [Some v]) (mkMx r c (Some (length (s_heap T s), 0)) true)) (length (s_objs T s)) (length (s_heap T s)).
  Proof.
    intros s v r c HI. split; [exists (mkMx r c (Some (length (s_heap T s), 0)) true); split; [apply is_new|auto]|].
    intros i n b o Hi. unfold is_obj, construct. cbn [s_objs]. intros E Ed. destruct (lt_dec i (length (s_objs T s))) as [L|L].
    - rewrite nth_error_app1 in E by exact L. destruct HI as [_ H]. specialize (H i n E). unfold obj_ok in H. rewrite Ed in H. lia.
    - rewrite nth_error_app2 in E by lia. destruct (i - length (s_objs T s)) as [|q] eqn:Eq; [lia|]. destruct q; discriminate.
  Qed.
End OwnValues.
