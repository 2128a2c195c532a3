(** * Every operation that respects the contract succeeds and keeps the invariant. *)

From Coq Require Import List Arith Bool Lia.
From Verif Require Import OwnModel OwnSpec OwnProofs.
Import ListNotations.

Section OwnStep.
  Context {T : Type}.
  Notation state := (state T).
  Notation heap := (heap T).

  Lemma inv_init : inv (init T).
  Proof. split; [intros a; destruct a; reflexivity|]. intros i m E. destruct i; discriminate. Qed.

  Lemma put_eq : forall s h i m, put T s h i m = mkState T h (set_nth (s_objs T s) i (Some m)) (s_user T s).
  Proof. reflexivity. Qed.

  Lemma ok_default : forall s, inv s -> exists s', step T s (Default T) = Some s' /\ inv s'.
  Proof.
    intros s HI. eexists. split; [reflexivity|]. apply inv_add; [exact HI|apply heap_le_refl|exact I|]. intros a. reflexivity.
  Qed.
  Lemma ok_make : forall s r c v, inv s -> exists s', step T s (Make T r c v) = Some s' /\ inv s'.
  Proof.
    intros s r c v HI. eexists. split; [reflexivity|]. destruct (new_ok (s_heap T s) (repeat v (r * c))) as (N1 & _ & _ & N4).
    destruct (fresh_ok (s_heap T s) r c (repeat v (r * c)) (repeat_length _ _)) as [F1 F2].
    apply inv_add; [exact HI|exact N1|exact F1|]. intros a. rewrite F2, N4. lia.
  Qed.
  Lemma ok_copy : forall s i, inv s -> contract s (Copy T i) -> exists s', step T s (Copy T i) = Some s' /\ inv s'.
  Proof.
    intros s i HI (m & Hm & Hu). cbn [step]. unfold op_copy. rewrite (obj_is _ _ _ Hm). cbn [bind].
    destruct (usable_read s i m HI Hm Hu) as (v & V1 & V2 & _). rewrite V1. cbn [bind new].
    eexists. split; [reflexivity|]. destruct (new_ok (s_heap T s) v) as (N1 & _ & _ & N4).
    destruct (fresh_ok (s_heap T s) (x_rows m) (x_cols m) v V2) as [F1 F2].
    apply inv_add; [exact HI|exact N1|exact F1|]. intros a. rewrite F2, N4. lia.
  Qed.
  Lemma two_owners : forall (s : state) i j m n a, inv s -> is_obj s i m -> is_obj s j n -> i <> j -> owns m a = true -> owns n a = true -> False.
  Proof.
    intros s i j m n a HI Hm Hn Hij Q Qn.
    destruct HI as [H1 _]. specialize (H1 a). rewrite owners_eq in H1. fold (st (s_heap T s) a) in H1. pose proof (st_le_1 (s_heap T s) a).
    assert (G : forall (l : list (option mx)) i j, nth_error l i = Some (Some m) -> nth_error l j = Some (Some n) -> i <> j -> 2 <= fl l a).
    { clear -Q Qn. induction l as [|x l IH]; intros [|i] [|j] Ei Ej Hij; try discriminate; try lia; rewrite fl_cons; cbn [nth_error] in *.
      - injection Ei as ->. pose proof (fl_ge l j n a Ej Qn). cbn [ob]. rewrite Q. cbn. lia.
      - injection Ej as ->. pose proof (fl_ge l i m a Ei Q). cbn [ob]. rewrite Qn. cbn. lia.
      - specialize (IH i j Ei Ej ltac:(lia)). lia. }
    specialize (G (s_objs T s) i j Hm Hn Hij). lia.
  Qed.
  Lemma not_owned : forall (s : state) i j m n a o, inv s -> is_obj s i m -> is_obj s j n -> i <> j -> x_data n = Some (a, o) ->
    (x_own n = false -> owns m a = false) -> owns m a = false.
  Proof.
    intros s i j m n a o HI Hm Hn Hij E Hv. destruct (x_own n) eqn:Eo; [|auto]. destruct (owns m a) eqn:Q; [|reflexivity]. exfalso.
    apply (two_owners s i j m n a HI Hm Hn Hij Q). unfold owns. rewrite E, Eo, Nat.eqb_refl. reflexivity.
  Qed.
  Lemma read_same : forall (h h' : heap) p n, (forall a o, p = Some (a, o) -> nth_error h' a = nth_error h a) -> read_n T h' p n = read_n T h p n.
  Proof. intros h h' [[a o]|] n H; unfold read_n; [|reflexivity]. rewrite (H a o eq_refl). reflexivity. Qed.

  Lemma copy_n_apart : forall (s : state) m n v h, x_size m = x_size n -> apart m n -> read_n T (s_heap T s) (x_data n) (x_size n) = Some v ->
    write_n T (s_heap T s) (x_data m) v = Some h -> copy_n T (s_heap T s) (x_data n) (x_size m) (x_data m) = Some h.
  Proof.
    intros s m n v h Es Hap E1 E2. unfold copy_n. rewrite Es, E1. cbn [bind].
    destruct (x_data n) as [[a o]|] eqn:En; [|exact E2]. destruct (x_data m) as [[b o']|] eqn:Em; [|exact E2].
    destruct (Nat.eqb_spec a b) as [<-|Ne]; [|exact E2]. cbn [andb]. pose proof (Hap a o' o Em En) as Q.
    destruct (Nat.ltb_spec o (o' + x_size n)); [|exact E2]. destruct (Nat.ltb_spec o' (o + x_size n)); [lia|exact E2].
  Qed.
  Lemma ok_copy_assign : forall s i j, inv s -> contract s (CopyAssign T i j) -> exists s', step T s (CopyAssign T i j) = Some s' /\ inv s'.
  Proof.
    intros s i j HI (m & n & Hm & Hn & Hu & Hs & Hd). cbn [step]. unfold op_copy_assign. rewrite (obj_is _ _ _ Hm), (obj_is _ _ _ Hn). cbn [bind].
    destruct (Nat.eqb_spec i j) as [Eij|Nij]; [exists s; split; [reflexivity|exact HI]|].
    destruct (usable_read s j n HI Hn Hu) as (v & V1 & V2 & _).
    destruct (Nat.eqb_spec (x_size m) (x_size n)) as [Es|Ns].
    - destruct (Hs Nij Es) as [Hum Hap]. destruct (usable_write s i m v HI Hm Hum ltac:(lia)) as (h & W1 & W2 & W3 & _).
      rewrite (copy_n_apart s m n v h Es Hap V1 W1). cbn [bind].
      eexists. split; [reflexivity|]. rewrite put_eq. apply (inv_put s i m); [exact HI|exact Hm|exact W2| |].
      + assert (Q : obj_ok h m) by (apply (obj_ok_le _ _ _ W2); exact (proj2 HI i m Hm)). unfold obj_ok in *. cbn [x_data x_own].
        destruct (x_data m) as [[a o]|]; [|exact I]. destruct Q as (Q1 & Q2 & Q3). split; [exact Q1|]. split; [exact Q2|].
        intros buf E. specialize (Q3 buf E). unfold x_size in *. cbn [x_rows x_cols]. lia.
      + intros a. rewrite W3. rewrite (owns_same (mkMx (x_rows n) (x_cols n) (x_data m) (x_own m)) m a eq_refl eq_refl). lia.
    - destruct (drop_ok s i m HI Hm) as (h & D1 & D2 & D3 & D4). rewrite D1. cbn [bind].
      rewrite (read_same (s_heap T s) h).
      2: { intros a o E. apply D4. apply (not_owned s i j m n a o HI Hm Hn Nij E). intros Eo. exact (Hd Nij Ns Eo a o E). }
      rewrite V1. cbn [bind new]. eexists. split; [reflexivity|]. rewrite put_eq. destruct (new_ok h v) as (N1 & _ & _ & N4).
      destruct (fresh_ok h (x_rows n) (x_cols n) v V2) as [F1 F2].
      apply (inv_put s i m); [exact HI|exact Hm|exact (heap_le_trans _ _ _ D2 N1)|exact F1|].
      intros a. rewrite F2, N4. specialize (D3 a). lia.
  Qed.
  Lemma null_ok : forall (h : heap) r c b, obj_ok h (mkMx r c None b).
  Proof. intros. exact I. Qed.
  Lemma ok_move : forall s i, inv s -> contract s (Move T i) -> exists s', step T s (Move T i) = Some s' /\ inv s'.
  Proof.
    intros s i HI (m & Hm). cbn [step]. unfold op_move. rewrite (obj_is _ _ _ Hm). cbn [bind]. eexists. split; [reflexivity|]. destruct HI as [H1 H2]. split.
    - intros a. rewrite owners_eq. cbn [construct put s_objs s_user s_heap]. fold (st (s_heap T s) a). specialize (H1 a). rewrite owners_eq in H1. fold (st (s_heap T s) a) in H1.
      rewrite fl_app, fl_cons. cbn [ob]. change (fl [] a) with 0.
      pose proof (fl_set (s_objs T s) i (Some m) (Some (mkMx (x_rows m) (x_cols m) None (x_own m))) a Hm) as F. cbn [ob] in F.
      change (owns (mkMx (x_rows m) (x_cols m) None (x_own m)) a) with false in F. cbn [b2n] in F. lia.
    - intros k n. unfold is_obj. cbn [construct put s_objs s_heap]. intros E. destruct (lt_dec k (length (set_nth (s_objs T s) i (Some (mkMx (x_rows m) (x_cols m) None (x_own m)))))) as [L|L].
      + rewrite nth_error_app1 in E by exact L. rewrite nth_set_nth in E. destruct ((k =? i) && (i <? length (s_objs T s))); [injection E as <-; exact I|exact (H2 k n E)].
      + rewrite nth_error_app2 in E by lia. destruct (k - _) as [|q]; cbn in E; [injection E as <-; exact (H2 i m Hm)|destruct q; discriminate].
  Qed.
  Lemma ok_move_assign : forall s i j, inv s -> contract s (MoveAssign T i j) -> exists s', step T s (MoveAssign T i j) = Some s' /\ inv s'.
  Proof.
    intros s i j HI (m & n & Hm & Hn). cbn [step]. unfold op_move_assign. rewrite (obj_is _ _ _ Hm), (obj_is _ _ _ Hn). cbn [bind].
    destruct (Nat.eqb_spec i j) as [Eij|Nij]; [exists s; split; [reflexivity|exact HI]|].
    destruct (drop_ok s i m HI Hm) as (h & D1 & D2 & D3 & D4). rewrite D1. cbn [bind]. eexists. split; [reflexivity|]. destruct HI as [H1 H2].
    assert (Lj : j < length (s_objs T s)) by (apply nth_error_Some; unfold is_obj in Hn; congruence).
    assert (Hn' : nth_error (set_nth (s_objs T s) i (Some n)) j = Some (Some n)).
    { rewrite nth_set_nth. apply Nat.eqb_neq in Nij. rewrite Nat.eqb_sym, Nij. exact Hn. }
    split.
    - intros a. rewrite owners_eq. cbn [put s_objs s_user s_heap]. fold (st h a). specialize (H1 a). rewrite owners_eq in H1. fold (st (s_heap T s) a) in H1.
      pose proof (fl_set (s_objs T s) i (Some m) (Some n) a Hm) as F1. cbn [ob] in F1.
      pose proof (fl_set _ j (Some n) (Some (mkMx (x_rows n) (x_cols n) None (x_own n))) a Hn') as F2. cbn [ob] in F2.
      change (owns (mkMx (x_rows n) (x_cols n) None (x_own n)) a) with false in F2. cbn [b2n] in F2. specialize (D3 a). lia.
    - intros k q. unfold is_obj. cbn [put s_objs s_heap]. rewrite nth_set_nth. destruct ((k =? j) && _); [intros E; injection E as <-; exact I|].
      rewrite nth_set_nth. destruct ((k =? i) && _); intros E; [injection E as <-; apply (obj_ok_le _ _ _ D2); exact (H2 j n Hn)|].
      apply (obj_ok_le _ _ _ D2). exact (H2 k q E).
  Qed.
  Lemma drop_eq : forall s m, (match x_data m with Some _ => if x_own m then delete T (s_heap T s) (x_data m) else Some (s_heap T s) | None => Some (s_heap T s) end) =
    (if x_own m then delete T (s_heap T s) (x_data m) else Some (s_heap T s)).
  Proof. intros s m. destruct (x_data m); [reflexivity|]. destruct (x_own m); reflexivity. Qed.
  Lemma ok_destroy : forall s i, inv s -> contract s (Destroy T i) -> exists s', step T s (Destroy T i) = Some s' /\ inv s'.
  Proof.
    intros s i HI (m & Hm). cbn [step]. unfold op_destroy. rewrite (obj_is _ _ _ Hm). cbn [bind]. rewrite drop_eq.
    destruct (drop_ok s i m HI Hm) as (h & D1 & D2 & D3 & D4). rewrite D1. cbn [bind]. eexists. split; [reflexivity|]. destruct HI as [H1 H2]. split.
    - intros a. rewrite owners_eq. cbn [s_objs s_user s_heap]. fold (st h a). specialize (H1 a). rewrite owners_eq in H1. fold (st (s_heap T s) a) in H1.
      pose proof (fl_set (s_objs T s) i (Some m) None a Hm) as F1. cbn [ob] in F1. specialize (D3 a). lia.
    - intros k q. unfold is_obj. cbn [s_objs s_heap]. rewrite nth_set_nth. destruct ((k =? i) && _); intros E; [discriminate|].
      apply (obj_ok_le _ _ _ D2). exact (H2 k q E).
  Qed.
  Lemma ok_fill : forall s i v, inv s -> contract s (Fill T i v) -> exists s', step T s (Fill T i v) = Some s' /\ inv s'.
  Proof.
    intros s i v HI (m & Hm & Hu). cbn [step]. unfold op_fill. rewrite (obj_is _ _ _ Hm). cbn [bind].
    destruct (0 <? x_size m); [|exists s; split; [reflexivity|exact HI]].
    destruct (usable_write s i m (repeat v (x_size m)) HI Hm Hu (repeat_length _ _)) as (h & W1 & W2 & W3 & _). rewrite W1. cbn [bind].
    eexists. split; [reflexivity|]. rewrite put_eq. apply (inv_put s i m); [exact HI|exact Hm|exact W2|apply (obj_ok_le _ _ _ W2); exact (proj2 HI i m Hm)|].
    intros a. rewrite W3. lia.
  Qed.
  Lemma entry_room : forall m j k, j < x_rows m -> k < x_cols m -> j + k * x_rows m + 1 <= x_size m.
  Proof. intros m j k Hj Hk. unfold x_size. nia. Qed.
  Lemma ok_read : forall s i j k, inv s -> contract s (Read T i j k) -> step T s (Read T i j k) = Some s.
  Proof.
    intros s i j k HI (m & Hm & Hu & Hj & Hk). cbn [step]. unfold op_read. rewrite (obj_is _ _ _ Hm). cbn [bind].
    pose proof (entry_room m j k Hj Hk) as R. destruct (usable_room s i m HI Hm Hu ltac:(lia)) as (a & o & buf & E1 & E2 & E3).
    unfold entry_ptr. rewrite E1. destruct (read_ok _ a (o + (j + k * x_rows m)) buf 1 E2 ltac:(lia)) as (v & V1 & V2 & V3). rewrite V1. cbn [bind].
    destruct v as [|x v]; [discriminate|reflexivity].
  Qed.
  Lemma ok_write : forall s i j k v, inv s -> contract s (Write T i j k v) -> exists s', step T s (Write T i j k v) = Some s' /\ inv s'.
  Proof.
    intros s i j k v HI (m & Hm & Hu & Hj & Hk). cbn [step]. unfold op_write. rewrite (obj_is _ _ _ Hm). cbn [bind].
    pose proof (entry_room m j k Hj Hk) as R. destruct (usable_room s i m HI Hm Hu ltac:(lia)) as (a & o & buf & E1 & E2 & E3).
    unfold entry_ptr. rewrite E1. destruct (write_ok _ a (o + (j + k * x_rows m)) buf [v] E2 ltac:(cbn; lia)) as (h & W1 & W2 & W3 & _). rewrite W1. cbn [bind].
    eexists. split; [reflexivity|]. rewrite put_eq. apply (inv_put s i m); [exact HI|exact Hm|exact W2|apply (obj_ok_le _ _ _ W2); exact (proj2 HI i m Hm)|].
    intros b. rewrite W3. lia.
  Qed.
  Lemma ok_release : forall s i, inv s -> contract s (Release T i) -> exists s', step T s (Release T i) = Some s' /\ inv s'.
  Proof.
    intros s i HI (m & Hm). cbn [step]. unfold op_release. rewrite (obj_is _ _ _ Hm). cbn [bind]. eexists. split; [reflexivity|].
    apply (inv_put s i m); [exact HI|exact Hm|apply heap_le_refl|exact I|]. intros b.
    change (owns (mkMx (x_rows m) (x_cols m) None (x_own m)) b) with false. cbn [b2n]. unfold owns.
    destruct (x_data m) as [[a o]|]; [|cbn [b2n]; lia]. destruct (x_own m); cbn [andb b2n]; [|lia]. cbn [count_occ].
    destruct (Nat.eq_dec a b) as [->|Ne]; [rewrite Nat.eqb_refl; cbn; lia|]. replace (b =? a) with false by (symmetry; apply Nat.eqb_neq; congruence). cbn. lia.
  Qed.
  Lemma ok_assign : forall s i r c p own, inv s -> contract s (Assign T i r c p own) -> exists s', step T s (Assign T i r c p own) = Some s' /\ inv s'.
  Proof.
    intros s i r c [a o] own HI (m & Hm & H0 & (buf & Hl & Hr) & Hown). cbn [fst snd] in *. cbn [step]. unfold op_assign. rewrite (obj_is _ _ _ Hm). cbn [bind].
    assert (D : exists h, (if (0 <? x_size m) && x_own m then delete T (s_heap T s) (x_data m) else Some (s_heap T s)) = Some h /\ heap_le (s_heap T s) h /\
      (forall a, st h a + b2n (owns m a) = st (s_heap T s) a) /\ forall b, owns m b = false -> nth_error h b = nth_error (s_heap T s) b).
    { destruct (drop_ok s i m HI Hm) as (h & D1 & D2 & D3 & D4). destruct (Nat.ltb_spec 0 (x_size m)) as [L|L]; cbn [andb]; [exists h; auto|].
      exists (s_heap T s). split; [reflexivity|]. split; [apply heap_le_refl|]. split; [|reflexivity]. intros b. unfold owns. destruct (x_data m) as [[b' o']|]; [|cbn; lia].
      rewrite H0 by (try lia; discriminate). cbn. lia. }
    destruct D as (h & D1 & D2 & D3 & D4). rewrite D1. cbn [bind]. eexists. split; [reflexivity|].
    assert (La : a < length (s_heap T s)) by (apply nth_error_Some; unfold live in Hl; congruence).
    apply (inv_put s i m); [exact HI|exact Hm|exact D2| |].
    - unfold obj_ok. cbn [x_data x_own]. split; [destruct D2; lia|]. split; [intros E; apply Hown; exact E|].
      intros b E. destruct D2 as [_ D2]. destruct (D2 a b La E) as (b' & E' & Q). unfold live in Hl. rewrite Hl in E'. injection E' as <-. unfold x_size. cbn [x_rows x_cols]. lia.
    - intros b. specialize (D3 b). destruct own.
      + cbn [fst]. rewrite count_remove. unfold owns at 1. cbn [x_data x_own andb].
        destruct (Hown eq_refl) as [Hin _].
        destruct HI as [H1 _]. specialize (H1 b). rewrite owners_eq in H1. fold (st (s_heap T s) b) in H1.
        destruct (Nat.eqb_spec a b) as [<-|Ne].
        * rewrite Nat.eqb_refl. cbn [b2n]. pose proof (proj1 (count_occ_In Nat.eq_dec _ _) Hin) as C1. pose proof (st_le_1 (s_heap T s) a).
          assert (F0 : fl (s_objs T s) a = 0) by lia. destruct (owns m a) eqn:Q; [pose proof (fl_ge _ _ _ _ Hm Q); lia|]. cbn [b2n] in *. lia.
        * replace (b =? a) with false by (symmetry; apply Nat.eqb_neq; congruence). cbn [b2n]. lia.
      + unfold owns at 1. cbn [x_data x_own andb b2n]. lia.
  Qed.
  Lemma write_fresh : forall (h : heap) v, exists h', write_n T (h ++ [Some v]) (Some (length h, 0)) v = Some h' /\ heap_le (h ++ [Some v]) h' /\
    (forall a, st h' a = st (h ++ [Some v]) a) /\ (forall b, b <> length h -> nth_error h' b = nth_error h b) /\
    exists buf, nth_error h' (length h) = Some (Some buf) /\ length buf = length v /\ forall k, k < length v -> nth_error buf k = nth_error v k.
  Proof.
    intros h v. destruct (new_ok h v) as (N1 & N2 & N3 & N4). destruct (write_ok _ (length h) 0 v v N2 ltac:(lia)) as (h' & W1 & W2 & W3 & _ & W4 & buf & W5 & W6 & W7).
    exists h'. split; [exact W1|]. split; [exact W2|]. split; [exact W3|]. split; [intros b Hb; rewrite W4, N3 by exact Hb; reflexivity|].
    exists buf. split; [exact W5|]. split; [exact W6|]. intros k Hk. rewrite W7. cbn [Nat.add]. replace (k <? length v) with true by (symmetry; apply Nat.ltb_lt; exact Hk).
    cbn [Nat.leb andb]. rewrite Nat.sub_0_r. reflexivity.
  Qed.
  (** The three branches of resize in one statement. *)
  Lemma resize_cases : forall s i r c v m, inv s -> is_obj s i m -> (x_size m = r * c -> usable s m /\ (x_own m = true \/ x_data m = None)) ->
    exists h p, step T s (Resize T i r c v) = Some (put T s h i (mkMx r c p true)) /\ heap_le (s_heap T s) h /\
      obj_ok h (mkMx r c p true) /\
      (forall a, b2n (owns (mkMx r c p true) a) + st (s_heap T s) a = b2n (owns m a) + st h a) /\
      (forall b, owns m b = false -> b < length (s_heap T s) -> nth_error h b = nth_error (s_heap T s) b) /\
      (r * c = 0 \/ exists a o buf, p = Some (a, o) /\ nth_error h a = Some (Some buf) /\ forall k, k < r * c -> nth_error buf (o + k) = Some v).
  Proof.
    intros s i r c v m HI Hm Hs. cbn [step]. unfold op_resize. rewrite (obj_is _ _ _ Hm). cbn [bind].
    assert (RN : forall n k, k < n -> nth_error (repeat v n) k = Some v).
    { induction n as [|n IHn]; intros [|k] Hk; cbn; try lia; try reflexivity. apply IHn. lia. }
    destruct (Nat.eqb_spec (x_size m) (r * c)) as [Es|Ns]; cbn [negb].
    - rewrite andb_false_r. cbn [bind fst snd]. destruct (Hs Es) as [Hu Ho].
      destruct (usable_write s i m (repeat v (r * c)) HI Hm Hu ltac:(rewrite repeat_length; lia)) as (h & W1 & W2 & W3 & W4 & W5). rewrite W1. cbn [bind].
      exists h, (x_data m). split; [reflexivity|]. split; [exact W2|].
      assert (OE : forall a, owns (mkMx r c (x_data m) true) a = owns m a).
      { intros a. destruct Ho as [Ho|Ho]; unfold owns; cbn [x_data x_own]; rewrite Ho; reflexivity. }
      split; [|split; [intros a; rewrite OE, W3; lia|split]].
      + assert (Q : obj_ok h m) by (apply (obj_ok_le _ _ _ W2); exact (proj2 HI i m Hm)). unfold obj_ok in *. cbn [x_data x_own].
        destruct (x_data m) as [[a o]|]; [|exact I]. destruct Ho as [Ho|Ho]; [|discriminate]. destruct Q as (Q1 & Q2 & Q3). split; [exact Q1|]. split; [auto|].
        intros buf E. specialize (Q3 buf E). unfold x_size at 1. cbn [x_rows x_cols]. lia.
      + intros b Hb _. apply W4. intros a o E Eb. subst b. unfold owns in Hb. rewrite E, Nat.eqb_refl in Hb. destruct Ho as [Ho|Ho]; [rewrite Ho in Hb; discriminate|congruence].
      + destruct W5 as [W5|(a & o & buf & E1 & E2 & E3)]; [left; lia|]. right. exists a, o, buf. split; [exact E1|]. split; [exact E2|]. intros k Hk.
        rewrite E3 by lia. apply RN. exact Hk.
    - rewrite andb_true_r.
      destruct (drop_ok s i m HI Hm) as (h & D1 & D2 & D3 & D4).
      assert (DD : exists h0, (if match x_data m with None => false | Some _ => true end && x_own m
          then bind (delete T (s_heap T s) (x_data m)) (fun h => Some (h ++ [Some (repeat v (r * c))], Some (length h, 0)))
          else Some (s_heap T s ++ [Some (repeat v (r * c))], Some (length (s_heap T s), 0))) = Some (h0 ++ [Some (repeat v (r * c))], Some (length h0, 0)) /\
          heap_le (s_heap T s) h0 /\ (forall a, st h0 a + b2n (owns m a) = st (s_heap T s) a) /\ (forall b, owns m b = false -> nth_error h0 b = nth_error (s_heap T s) b)).
      { destruct (x_own m) eqn:Eo; [destruct (x_data m) as [p|] eqn:Ed|].
        - cbn [andb]. rewrite D1. cbn [bind]. exists h. auto.
        - cbn [andb]. exists (s_heap T s). cbn in D1. injection D1 as <-. auto.
        - rewrite andb_false_r. injection D1 as <-. exists (s_heap T s). auto. }
      destruct DD as (h0 & E0 & Z1 & Z2 & Z3).
      assert (Shape : (if negb match x_data m with None => true | Some _ => false end && x_own m
          then bind (delete T (s_heap T s) (x_data m)) (fun h1 => let '(h', p) := new T h1 (repeat v (r * c)) in Some (h', Some p))
          else let '(h', p) := new T (s_heap T s) (repeat v (r * c)) in Some (h', Some p)) = Some (h0 ++ [Some (repeat v (r * c))], Some (length h0, 0))).
      { rewrite <- E0. destruct (x_data m); reflexivity. }
      rewrite Shape. clear Shape E0. cbn [bind fst snd].
      destruct (write_fresh h0 (repeat v (r * c))) as (h1 & W1 & W2 & W3 & W4 & buf & W5 & W6 & W7). rewrite W1. cbn [bind].
      destruct (new_ok h0 (repeat v (r * c))) as (N1 & _ & _ & N4). destruct (fresh_ok h0 r c (repeat v (r * c)) (repeat_length _ _)) as [F1 F2].
      exists h1, (Some (length h0, 0)). split; [reflexivity|]. split; [exact (heap_le_trans _ _ _ Z1 (heap_le_trans _ _ _ N1 W2))|].
      split; [exact (obj_ok_le _ _ _ W2 F1)|]. split; [|split].
      + intros a. rewrite F2, W3, N4. specialize (Z2 a). lia.
      + intros b Hb Lb. rewrite W4 by (destruct Z1; lia). apply Z3. exact Hb.
      + right. exists (length h0), 0, buf. split; [reflexivity|]. split; [exact W5|]. intros k Hk. cbn [Nat.add]. rewrite W7 by (rewrite repeat_length; exact Hk). apply RN. exact Hk.
  Qed.
  Lemma ok_resize : forall s i r c v, inv s -> contract s (Resize T i r c v) -> exists s', step T s (Resize T i r c v) = Some s' /\ inv s'.
  Proof.
    intros s i r c v HI (m & Hm & Hs). destruct (resize_cases s i r c v m HI Hm Hs) as (h & p & E & H1 & H2 & H3 & _).
    eexists. split; [exact E|]. rewrite put_eq. apply (inv_put s i m); [exact HI|exact Hm|exact H1|exact H2|]. intros a. specialize (H3 a). lia.
  Qed.
  Lemma ok_user_new : forall s buf, inv s -> exists s', step T s (UserNew T buf) = Some s' /\ inv s'.
  Proof.
    intros s buf [H1 H2]. eexists. split; [reflexivity|]. destruct (new_ok (s_heap T s) buf) as (N1 & _ & _ & N4). split.
    - intros a. rewrite owners_eq. cbn [new fst s_objs s_user s_heap]. fold (st (s_heap T s ++ [Some buf]) a). rewrite N4. specialize (H1 a). rewrite owners_eq in H1. fold (st (s_heap T s) a) in H1.
      cbn [count_occ]. destruct (Nat.eq_dec (length (s_heap T s)) a) as [<-|Ne]; [rewrite Nat.eqb_refl; cbn; lia|]. replace (a =? length (s_heap T s)) with false by (symmetry; apply Nat.eqb_neq; congruence). cbn. lia.
    - intros i m E. apply (obj_ok_le _ _ _ N1). exact (H2 i m E).
  Qed.
  Lemma ok_user_delete : forall s a, inv s -> contract s (UserDelete T a) -> exists s', step T s (UserDelete T a) = Some s' /\ inv s'.
  Proof.
    intros s a [H1 H2] Ha. cbn [contract] in Ha. cbn [step]. unfold op_user_delete.
    pose proof (proj1 (count_occ_In Nat.eq_dec _ _) Ha) as C1.
    assert (L : exists buf, nth_error (s_heap T s) a = Some (Some buf)).
    { apply st_live. specialize (H1 a). rewrite owners_eq in H1. fold (st (s_heap T s) a) in H1. pose proof (st_le_1 (s_heap T s) a). lia. }
    destruct L as (buf & E). destruct (delete_ok _ _ _ E) as (D1 & D2 & D3 & D4). rewrite D1. cbn [bind]. eexists. split; [reflexivity|]. split.
    - intros b. rewrite owners_eq. cbn [s_objs s_user s_heap]. fold (st (set_nth (s_heap T s) a None) b). pose proof (H1 b) as Hb. rewrite owners_eq in Hb. fold (st (s_heap T s) b) in Hb.
      rewrite count_remove. specialize (D4 b). pose proof (st_le_1 (s_heap T s) b). destruct (Nat.eqb_spec a b) as [<-|Ne].
      + rewrite Nat.eqb_refl in D4. cbn [b2n] in D4. lia.
      + replace (b =? a) with false in D4 by (symmetry; apply Nat.eqb_neq; congruence). cbn [b2n] in D4. lia.
    - intros i m Em. apply (obj_ok_le _ _ _ D2). exact (H2 i m Em).
  Qed.

  Lemma step_ok : forall s o, inv s -> contract s o -> exists s', step T s o = Some s' /\ inv s'.
  Proof.
    intros s o HI HC. destruct o.
    - exact (ok_default s HI).
    - exact (ok_make s r c v HI).
    - exact (ok_copy s i HI HC).
    - exact (ok_copy_assign s i j HI HC).
    - exact (ok_move s i HI HC).
    - exact (ok_move_assign s i j HI HC).
    - exact (ok_destroy s i HI HC).
    - exact (ok_fill s i v HI HC).
    - exists s. split; [exact (ok_read s i j k HI HC)|exact HI].
    - exact (ok_write s i j k v HI HC).
    - exact (ok_release s i HI HC).
    - exact (ok_assign s i r c p own HI HC).
    - exact (ok_resize s i r c v HI HC).
    - exact (ok_user_new s buf HI).
    - exact (ok_user_delete s a HI HC).
  Qed.
  Lemma run_ok : forall l s, inv s -> respects s l -> exists s', run T s l = Some s' /\ inv s'.
  Proof.
    induction l as [|o l IH]; intros s HI HR; cbn [run respects] in *; [exists s; auto|]. destruct HR as [HC HR].
    destruct (step_ok s o HI HC) as (s' & E & HI'). rewrite E. cbn [bind]. apply IH; [exact HI'|exact (HR s' E)].
  Qed.
End OwnStep.
