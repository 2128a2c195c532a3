(** * Proofs about the construction of cluster trees. *)

From Coq Require Import List Arith ZArith Bool Permutation Lia.
From Verif Require Import ClusterModel ClusterSpec.
Import ListNotations.

(** ** Slices and in-place updates *)

Lemma slice_app_mid : forall A (a m b : list A) lo sz,
  length a = lo -> length m = sz -> slice lo sz (a ++ m ++ b) = m.
Proof.
  intros A a m b lo sz Ha Hm. unfold slice. subst.
  rewrite skipn_app, skipn_all, Nat.sub_diag. simpl.
  rewrite firstn_app, firstn_all, Nat.sub_diag. simpl. apply app_nil_r.
Qed.

Lemma skipn_skipn' : forall A (l : list A) n m, skipn n (skipn m l) = skipn (m + n) l.
Proof.
  intros A l n m. revert l. induction m as [|m IH]; intros l; simpl; auto.
  destruct l; simpl; auto. apply skipn_nil.
Qed.

Lemma slice_split : forall A (l : list A) lo sz,
  l = firstn lo l ++ slice lo sz l ++ skipn (lo + sz) l.
Proof.
  intros A l lo sz. unfold slice.
  rewrite <- skipn_skipn'.
  rewrite firstn_skipn. symmetry. apply firstn_skipn.
Qed.

Lemma slice_length : forall A (l : list A) lo sz,
  lo + sz <= length l -> length (slice lo sz l) = sz.
Proof.
  intros A l lo sz H. unfold slice. rewrite firstn_length, skipn_length. lia.
Qed.

(** [upd lo hi p p']: [p'] is [p] with the range [lo,hi) rearranged. *)
Definition upd {A} (lo hi : nat) (p p' : list A) : Prop :=
  exists a m m' b, p = a ++ m ++ b /\ p' = a ++ m' ++ b /\
    length a = lo /\ lo + length m = hi /\ Permutation m m'.

Lemma upd_refl : forall A lo hi (p : list A), lo <= hi -> hi <= length p -> upd lo hi p p.
Proof.
  intros A lo hi p H1 H2. remember (hi - lo) as sz eqn:E.
  assert (hi = lo + sz) as -> by lia. clear E H1.
  exists (firstn lo p), (slice lo sz p), (slice lo sz p), (skipn (lo + sz) p).
  split; [apply slice_split|]. split; [apply slice_split|].
  split; [rewrite firstn_length; lia|]. split; [rewrite slice_length; lia|reflexivity].
Qed.

Lemma upd_length : forall A lo hi (p p' : list A), upd lo hi p p' -> length p' = length p.
Proof.
  intros A lo hi p p' (a & m & m' & b & -> & -> & _ & _ & Hp).
  rewrite !app_length. apply Permutation_length in Hp. lia.
Qed.

Lemma upd_bounds : forall A lo hi (p p' : list A), upd lo hi p p' -> lo <= hi /\ hi <= length p.
Proof.
  intros A lo hi p p' (a & m & m' & b & -> & _ & Ha & Hm & _).
  rewrite !app_length. lia.
Qed.

Lemma upd_perm : forall A lo hi (p p' : list A), upd lo hi p p' -> Permutation p p'.
Proof.
  intros A lo hi p p' (a & m & m' & b & -> & -> & _ & _ & Hp).
  apply Permutation_app_head, Permutation_app_tail, Hp.
Qed.

Lemma upd_slice : forall A lo hi (p p' : list A), upd lo hi p p' ->
  Permutation (slice lo (hi - lo) p) (slice lo (hi - lo) p').
Proof.
  intros A lo hi p p' (a & m & m' & b & -> & -> & Ha & Hm & Hp).
  rewrite !slice_app_mid; auto.
  - apply Permutation_length in Hp. lia.
  - lia.
Qed.

Lemma upd_widen : forall A lo hi lo' hi' (p p' : list A),
  upd lo hi p p' -> lo' <= lo -> hi <= hi' -> hi' <= length p -> upd lo' hi' p p'.
Proof.
  intros A lo hi lo' hi' p p' (a & m & m' & b & E1 & E2 & Ha & Hm & Hp) H1 H2 H3.
  assert (Hlen : length p = length a + (length m + length b)) by (rewrite E1, !app_length; lia).
  exists (firstn lo' a), (skipn lo' a ++ m ++ firstn (hi' - hi) b),
         (skipn lo' a ++ m' ++ firstn (hi' - hi) b), (skipn (hi' - hi) b).
  repeat split.
  - rewrite E1. rewrite <- !app_assoc, firstn_skipn.
    rewrite (app_assoc (firstn lo' a)), firstn_skipn. reflexivity.
  - rewrite E2. rewrite <- !app_assoc, firstn_skipn.
    rewrite (app_assoc (firstn lo' a)), firstn_skipn. reflexivity.
  - rewrite firstn_length. lia.
  - rewrite !app_length, skipn_length, firstn_length. lia.
  - apply Permutation_app_head, Permutation_app_tail, Hp.
Qed.

Lemma upd_trans : forall A lo hi (p q r : list A), upd lo hi p q -> upd lo hi q r -> upd lo hi p r.
Proof.
  intros A lo hi p q r (a & m & m' & b & E1 & E2 & Ha & Hm & Hp)
         (a2 & n & n' & b2 & F1 & F2 & Ha2 & Hn & Hp2).
  rewrite E2 in F1.
  assert (Hl : length m' = length m) by (apply Permutation_length in Hp; lia).
  assert (a = a2).
  { apply (f_equal (firstn lo)) in F1.
    rewrite !firstn_app in F1.
    rewrite (firstn_all2 a), (firstn_all2 a2) in F1 by lia.
    replace (lo - length a) with 0 in F1 by lia. replace (lo - length a2) with 0 in F1 by lia.
    simpl in F1. rewrite !app_nil_r in F1. exact F1. }
  subst a2. apply app_inv_head in F1.
  assert (m' = n).
  { apply (f_equal (firstn (hi - lo))) in F1.
    rewrite !firstn_app in F1.
    rewrite (firstn_all2 m'), (firstn_all2 n) in F1 by lia.
    replace (hi - lo - length m') with 0 in F1 by lia. replace (hi - lo - length n) with 0 in F1 by lia.
    simpl in F1. rewrite !app_nil_r in F1. exact F1. }
  subst n. apply app_inv_head in F1. subst b2.
  exists a, m, n', b. repeat split; auto. eapply perm_trans; eauto.
Qed.

Lemma upd_slice_disjoint : forall A lo hi (p p' : list A) off sz,
  upd lo hi p p' -> off + sz <= lo \/ hi <= off -> slice off sz p' = slice off sz p.
Proof.
  intros A lo hi p p' off sz (a & m & m' & b & -> & -> & Ha & Hm & Hp) H.
  apply Permutation_length in Hp. unfold slice. destruct H as [H|H].
  - rewrite !skipn_app. rewrite !firstn_app.
    assert (E : sz - length (skipn off a) = 0) by (rewrite skipn_length; lia).
    rewrite E. simpl. reflexivity.
  - rewrite !skipn_app. rewrite !(skipn_all2 a) by lia.
    rewrite (skipn_all2 m) by lia. rewrite (skipn_all2 m') by lia.
    simpl. rewrite Hp. reflexivity.
Qed.

Lemma upd_slice_inside : forall A lo hi (p p' : list A) off sz,
  upd lo hi p p' -> off <= lo -> hi <= off + sz -> off + sz <= length p ->
  Permutation (slice off sz p) (slice off sz p').
Proof.
  intros A lo hi p p' off sz H H1 H2 H3.
  assert (W : upd off (off + sz) p p') by (eapply upd_widen; eauto).
  apply upd_slice in W. replace (off + sz - off) with sz in W by lia. exact W.
Qed.

Lemma set_slice_upd : forall A off sz (l s : list A),
  off + sz <= length l -> Permutation s (slice off sz l) ->
  upd off (off + sz) l (set_slice off sz l s).
Proof.
  intros A off sz l s H Hp.
  exists (firstn off l), (slice off sz l), s, (skipn (off + sz) l).
  repeat split.
  - apply slice_split.
  - rewrite firstn_length; lia.
  - rewrite slice_length; lia.
  - apply Permutation_sym, Hp.
Qed.

(** ** Specification: consecutive intervals *)



Lemma tiles_le : forall l lo hi, tiles lo hi l -> lo <= hi.
Proof.
  induction l as [|[o s] l IH]; simpl; intros lo hi H.
  - lia.
  - destruct H as [-> H]. apply IH in H. lia.
Qed.

Lemma tiles_app : forall l1 l2 lo mid hi,
  tiles lo mid l1 -> tiles mid hi l2 -> tiles lo hi (l1 ++ l2).
Proof.
  induction l1 as [|[o s] l1 IH]; simpl; intros l2 lo mid hi H1 H2.
  - subst; auto.
  - destruct H1 as [-> H1]. split; auto. eapply IH; eauto.
Qed.

(** Each index of the tiled range lies in exactly one interval. *)

Lemma tiles_unique : forall l lo hi i, tiles lo hi l ->
  length (filter (in_iv i) l) = if (lo <=? i) && (i <? hi) then 1 else 0.
Proof.
  induction l as [|[o s] l IH]; intros lo hi i H.
  - simpl in *. subst. destruct (Nat.leb_spec hi i), (Nat.ltb_spec i hi); simpl; auto; lia.
  - simpl in H. destruct H as [-> H].
    pose proof (tiles_le _ _ _ H) as Hle.
    specialize (IH _ _ i H). cbn [filter]. unfold in_iv at 1. cbn [fst snd].
    destruct (Nat.leb_spec lo i), (Nat.ltb_spec i (lo + s)), (Nat.leb_spec (lo + s) i), (Nat.ltb_spec i hi);
      cbn [andb length] in *; lia.
Qed.

(** ** Children of a step *)

Definition os_of (c : cinfo) : nat * nat := (ci_off c, ci_size c).

Lemma child_infos_os : forall P c perm l p, map os_of (child_infos P c perm p l) = l.
Proof.
  induction l as [|[o s] l IH]; simpl; intros p; auto. f_equal; auto.
Qed.

Lemma child_infos_pts : forall P c perm l p k,
  In k (child_infos P c perm p l) -> ci_pts k = slice (ci_off k) (ci_size k) perm.
Proof.
  induction l as [|[o s] l IH]; simpl; intros p k H; [contradiction|].
  destruct H as [<-|H]; simpl; eauto.
Qed.

Lemma child_infos_length : forall P c perm l p, length (child_infos P c perm p l) = length l.
Proof. induction l as [|[o s] l IH]; simpl; intros; auto. Qed.

Lemma child_infos_nth : forall P c perm l p i os,
  nth_error l i = Some os -> nth_error (child_infos P c perm p l) i = Some (child_info P c perm (p + i) os).
Proof.
  induction l as [|os' l IH]; intros p i os H; destruct i; simpl in *; try discriminate.
  - injection H as ->. rewrite Nat.add_0_r. reflexivity.
  - rewrite (IH _ _ _ H). f_equal. f_equal. lia.
Qed.

(** ** The recursion *)

Section Proofs.
  Variable sorter : cinfo -> list nat -> list nat.
  Variable splitter : cinfo -> list nat -> nat -> option (list (nat * nat)).
  Variable P : bparams.

  Notation step := (step sorter splitter P).
  Notation build := (build sorter splitter P).
  Notation build_list := (build_list sorter splitter P).
  Notation run := (run sorter splitter P).

  Lemma build_S : forall f st c,
    build (S f) st c =
    match step st c with
    | None => None
    | Some (st', kids) =>
        match build_list f st' kids with
        | None => None
        | Some (s, ts) => Some (s, CNode c ts)
        end
    end.
  Proof.
    intros f st c. cbn [ClusterModel.build].
    destruct (step st c) as [[st' kids]|]; auto.
    match goal with |- match ?A with _ => _ end = match ?B with _ => _ end => assert (E : A = B) end.
    { induction kids as [|k ks IH]; cbn [ClusterModel.build_list]; auto. rewrite IH. reflexivity. }
    rewrite E. reflexivity.
  Qed.

  Lemma build_info : forall f st c s t, build f st c = Some (s, t) -> ct_info t = c.
  Proof.
    intros [|f] st c s t H; [discriminate|]. rewrite build_S in H.
    destruct (step st c) as [[st' kids]|]; [|discriminate].
    destruct (build_list f st' kids) as [[s1 ts]|]; [|discriminate].
    injection H as _ <-. reflexivity.
  Qed.

  Lemma build_list_info : forall f ks st s ts, build_list f st ks = Some (s, ts) -> map ct_info ts = ks.
  Proof.
    induction ks as [|k ks IH]; cbn [ClusterModel.build_list]; intros st s ts H.
    - injection H as _ <-. reflexivity.
    - destruct (build_list f st ks) as [[s1 ts1]|] eqn:E; [|discriminate].
      destruct (build f s1 k) as [[s2 t]|] eqn:E2; [|discriminate].
      injection H as _ <-. simpl. rewrite (IH _ _ _ E). rewrite (build_info _ _ _ _ _ E2). reflexivity.
  Qed.

  (** *** The stack machine and the recursion agree *)

  Lemma run_mono : forall f stack st log r, run f stack st log = Some r -> forall g, f <= g -> run g stack st log = Some r.
  Proof.
    induction f as [|f IH]; intros stack st log r H g Hg.
    - destruct stack; [|discriminate]. destruct g; exact H.
    - destruct stack as [|c stack]; [destruct g; exact H|].
      destruct g as [|g]; [lia|]. cbn [ClusterModel.run] in *.
      destruct (step st c) as [[st' kids]|]; [|discriminate].
      apply (IH _ _ _ _ H). lia.
  Qed.

  Lemma concat_rev_snoc : forall A (x : list A) l, concat (rev (x :: l)) = concat (rev l) ++ x.
  Proof. intros. simpl. rewrite concat_app. simpl. rewrite app_nil_r. reflexivity. Qed.

  Lemma run_build_gen : forall f,
    (forall st c s t stack log g r,
        build f st c = Some (s, t) ->
        run g stack s (log ++ rlog t) = Some r ->
        run (length (rlog t) + g) (c :: stack) st log = Some r) /\
    (forall ks st s ts stack log g r,
        build_list f st ks = Some (s, ts) ->
        run g stack s (log ++ concat (rev (map rlog ts))) = Some r ->
        run (length (concat (rev (map rlog ts))) + g) (rev ks ++ stack) st log = Some r).
  Proof.
    induction f as [|f [IHb IHl]].
    - split; [intros; discriminate|].
      induction ks as [|k ks IH]; cbn [ClusterModel.build_list]; intros st s ts stack log g r H Hr.
      + injection H as <- <-. simpl in *. rewrite app_nil_r in Hr. exact Hr.
      + destruct (build_list 0 st ks) as [[s1 ts1]|] eqn:E; [|discriminate].
        discriminate.
    - assert (HB : forall st c s t stack log g r,
        build (S f) st c = Some (s, t) ->
        run g stack s (log ++ rlog t) = Some r ->
        run (length (rlog t) + g) (c :: stack) st log = Some r).
      { intros st c s t stack log g r H Hr. rewrite build_S in H.
        destruct (step st c) as [[st' kids]|] eqn:Es; [|discriminate].
        destruct (build_list f st' kids) as [[s1 ts]|] eqn:El; [|discriminate].
        injection H as <- <-. cbn [rlog length plus]. cbn [ClusterModel.run]. rewrite Es.
        cbn [rlog] in Hr. rewrite <- (build_list_info _ _ _ _ _ El).
        rewrite (build_list_info _ _ _ _ _ El) at 1.
        eapply IHl; [exact El|].
        rewrite <- app_assoc. exact Hr. }
      split; [exact HB|].
      induction ks as [|k ks IH]; cbn [ClusterModel.build_list]; intros st s ts stack log g r H Hr.
      + injection H as <- <-. simpl in *. rewrite app_nil_r in Hr. exact Hr.
      + destruct (build_list (S f) st ks) as [[s1 ts1]|] eqn:E; [|discriminate].
        destruct (build (S f) s1 k) as [[s2 t]|] eqn:E2; [|discriminate].
        injection H as <- <-. cbn [map] in *. rewrite concat_rev_snoc in *.
        cbn [rev]. rewrite <- app_assoc. cbn [app]. rewrite app_length, <- Nat.add_assoc.
        eapply IH; [exact E|].
        eapply HB; [exact E2|]. rewrite <- app_assoc. exact Hr.
  Qed.

  Lemma run_build : forall f st c s t,
    build f st c = Some (s, t) -> run (length (rlog t)) [c] st [] = Some (s, rlog t).
  Proof.
    intros f st c s t H.
    replace (length (rlog t)) with (length (rlog t) + 0) by lia.
    eapply (proj1 (run_build_gen f)); [exact H|reflexivity].
  Qed.

  (** Conversely, when the machine stops, the recursion succeeds. *)

  Lemma build_list_mono_aux : forall f g,
    (forall st c r, build f st c = Some r -> build g st c = Some r) ->
    forall ks st r, build_list f st ks = Some r -> build_list g st ks = Some r.
  Proof.
    intros f g Hb. induction ks as [|k ks IH]; cbn [ClusterModel.build_list]; intros st r H; auto.
    destruct (build_list f st ks) as [[s1 ts1]|] eqn:E; [|discriminate].
    rewrite (IH _ _ E).
    destruct (build f s1 k) as [[s2 t]|] eqn:E2; [|discriminate].
    rewrite (Hb _ _ _ E2). exact H.
  Qed.

  Lemma build_mono : forall f g st c r, f <= g -> build f st c = Some r -> build g st c = Some r.
  Proof.
    induction f as [|f IH]; intros g st c r Hg H; [discriminate|].
    destruct g as [|g]; [lia|]. rewrite build_S in *.
    destruct (step st c) as [[st' kids]|]; auto.
    destruct (build_list f st' kids) as [[s ts]|] eqn:E; [|discriminate].
    rewrite (build_list_mono_aux f g) with (r := (s, ts)); auto.
    intros; apply IH; auto. lia.
  Qed.

  Lemma build_list_mono : forall f g ks st r, f <= g -> build_list f st ks = Some r -> build_list g st ks = Some r.
  Proof.
    intros f g ks st r Hg. apply build_list_mono_aux. intros. eapply build_mono; eauto.
  Qed.

  Lemma build_list_snoc : forall f ks k st s1 t s2 ts,
    build f st k = Some (s1, t) -> build_list f s1 ks = Some (s2, ts) ->
    build_list f st (ks ++ [k]) = Some (s2, ts ++ [t]).
  Proof.
    induction ks as [|k0 ks IH]; cbn [ClusterModel.build_list app]; intros k st s1 t s2 ts H1 H2.
    - rewrite H1. injection H2 as <- <-. reflexivity.
    - destruct (build_list f s1 ks) as [[s3 ts3]|] eqn:E; [|discriminate].
      rewrite (IH _ _ _ _ _ _ H1 E).
      destruct (build f s3 k0) as [[s4 t4]|]; [|discriminate].
      injection H2 as <- <-. reflexivity.
  Qed.

  Lemma build_run_gen : forall g c stack st log r,
    run g (c :: stack) st log = Some r ->
    exists f s t g', build f st c = Some (s, t) /\ g' < g /\ run g' stack s (log ++ rlog t) = Some r.
  Proof.
    induction g as [g IHg] using lt_wf_ind. intros c stack st log r H.
    destruct g as [|g]; [discriminate|]. cbn [ClusterModel.run] in H.
    destruct (step st c) as [[st' kids]|] eqn:Es; [|discriminate].
    assert (HL : forall L st0 log0 g0, g0 <= g ->
               run g0 (L ++ stack) st0 log0 = Some r ->
               exists f s ts g', build_list f st0 (rev L) = Some (s, ts) /\ g' <= g0 /\
                 run g' stack s (log0 ++ concat (rev (map rlog ts))) = Some r).
    { induction L as [|k L IHL]; intros st0 log0 g0 Hle Hr.
      - exists 0, st0, [], g0. simpl. rewrite app_nil_r. auto.
      - cbn [app] in Hr.
        destruct (IHg g0 ltac:(lia) _ _ _ _ _ Hr) as (f1 & s1 & t1 & g2 & Hb & Hg2 & Hr2).
        destruct (IHL _ _ g2 ltac:(lia) Hr2) as (f2 & s2 & ts & g3 & Hb2 & Hg3 & Hr3).
        exists (Nat.max f1 f2), s2, (ts ++ [t1]), g3. split; [|split; [lia|]].
        + cbn [rev]. eapply build_list_snoc.
          * eapply build_mono; [|exact Hb]. lia.
          * eapply build_list_mono; [|exact Hb2]. lia.
        + rewrite map_app, rev_app_distr. cbn [map rev app concat]. rewrite app_assoc. exact Hr3. }
    destruct (HL (rev kids) st' _ g (le_n _) H) as (f & s & ts & g' & Hb & Hg & Hr).
    rewrite rev_involutive in Hb.
    exists (S f), s, (CNode c ts), g'. split; [|split; [lia|]].
    - rewrite build_S, Es, Hb. reflexivity.
    - cbn [rlog]. rewrite (build_list_info _ _ _ _ _ Hb). rewrite <- app_assoc in Hr. exact Hr.
  Qed.

  Lemma build_run : forall g c st s log,
    run g [c] st [] = Some (s, log) -> exists f t, build f st c = Some (s, t) /\ log = rlog t.
  Proof.
    intros g c st s log H.
    destruct (build_run_gen _ _ _ _ _ _ H) as (f & s' & t & g' & Hb & _ & Hr).
    destruct g'; cbn in Hr; injection Hr as <- <-; eauto.
  Qed.


  (** *** Invariant: permutation, tiling, points of each cluster *)

  Hypothesis Hsort : forall c perm, ci_off c + ci_size c <= length perm ->
    Permutation (sorter c perm) (slice (ci_off c) (ci_size c) perm).
  Hypothesis Hsplit : forall c perm nc l, splitter c perm nc = Some l ->
    l = [] \/ tiles (ci_off c) (ci_off c + ci_size c) l.

  (** Nodes of [t] hold, in the permutation [perm], the points they were created with. *)
  Definition pts_ok (perm : list nat) (c : cinfo) : Prop :=
    Permutation (ci_pts c) (slice (ci_off c) (ci_size c) perm).


  Lemma step_spec : forall st c st' kids,
    step st c = Some (st', kids) -> ci_off c + ci_size c <= length (st_perm st) ->
    upd (ci_off c) (ci_off c + ci_size c) (st_perm st) (st_perm st') /\
    (kids = [] \/ tiles (ci_off c) (ci_off c + ci_size c) (map os_of kids)) /\
    (forall k, In k kids -> ci_pts k = slice (ci_off k) (ci_size k) (st_perm st')).
  Proof.
    intros st c st' kids H Hb. unfold ClusterModel.step in H.
    set (perm1 := set_slice (ci_off c) (ci_size c) (st_perm st) (sorter c (st_perm st))) in *.
    assert (Hu : upd (ci_off c) (ci_off c + ci_size c) (st_perm st) perm1).
    { apply set_slice_upd; auto. }
    destruct (splitter c perm1 (current_nc P c)) as [spl|] eqn:E; [|discriminate].
    destruct (child_infos P c perm1 0 spl) as [|k0 ks] eqn:Ek.
    - destruct (ci_rank c <? 0)%Z; injection H as <- <-; cbn [st_perm];
        (split; [exact Hu|split; [left; reflexivity|intros k []]]).
    - injection H as <- <-. cbn [st_perm]. split; [exact Hu|]. split.
      + right. rewrite <- Ek, child_infos_os.
        destruct (Hsplit _ _ _ _ E) as [->|Ht]; [discriminate|exact Ht].
      + intros k Hk. rewrite <- Ek in Hk. eapply child_infos_pts; eauto.
  Qed.

  Lemma In_nodes_inv : forall u c ts, In u (ct_nodes (CNode c ts)) ->
    u = CNode c ts \/ exists t, In t ts /\ In u (ct_nodes t).
  Proof.
    intros u c ts H. simpl in H. destruct H as [<-|H]; [left; reflexivity|right].
    apply in_concat in H. destruct H as (x & Hx & Hu).
    apply in_map_iff in Hx. destruct Hx as (t & <- & Ht). eauto.
  Qed.

  Lemma In_nodes_child : forall u c ts t, In t ts -> In u (ct_nodes t) -> In u (ct_nodes (CNode c ts)).
  Proof.
    intros u c ts t Ht Hu. simpl. right. apply in_concat. exists (ct_nodes t). split; auto.
    apply in_map, Ht.
  Qed.

  Lemma In_nodes_root : forall t, In t (ct_nodes t).
  Proof. intros [c ts]. left. reflexivity. Qed.

  Lemma tiles_In : forall l lo hi o s, tiles lo hi l -> In (o, s) l -> lo <= o /\ o + s <= hi.
  Proof.
    induction l as [|[o' s'] l IH]; simpl; intros lo hi o s H Hin; [contradiction|].
    destruct H as [-> H]. pose proof (tiles_le _ _ _ H). destruct Hin as [E|Hin].
    - injection E as -> ->. lia.
    - apply (IH _ _ _ _ H) in Hin. lia.
  Qed.

  Lemma interval_os : forall ts, map interval ts = map os_of (map ct_info ts).
  Proof. intros. rewrite map_map. reflexivity. Qed.

  Lemma build_inv : forall f,
    (forall st c s t, build f st c = Some (s, t) ->
       ci_off c + ci_size c <= length (st_perm st) ->
       upd (ci_off c) (ci_off c + ci_size c) (st_perm st) (st_perm s) /\
       (forall u, In u (ct_nodes t) ->
          node_ok u /\
          (ci_off c <= ci_off (ct_info u) /\ ci_off (ct_info u) + ci_size (ct_info u) <= ci_off c + ci_size c) /\
          (pts_ok (st_perm st) c -> pts_ok (st_perm s) (ct_info u)))) /\
    (forall ks lo hi st s ts, build_list f st ks = Some (s, ts) ->
       tiles lo hi (map os_of ks) -> hi <= length (st_perm st) ->
       (forall k, In k ks -> pts_ok (st_perm st) k) ->
       upd lo hi (st_perm st) (st_perm s) /\
       (forall t u, In t ts -> In u (ct_nodes t) ->
          node_ok u /\
          (lo <= ci_off (ct_info u) /\ ci_off (ct_info u) + ci_size (ct_info u) <= hi) /\
          pts_ok (st_perm s) (ct_info u))).
  Proof.
    assert (HL : forall f,
      (forall st c s t, build f st c = Some (s, t) ->
       ci_off c + ci_size c <= length (st_perm st) ->
       upd (ci_off c) (ci_off c + ci_size c) (st_perm st) (st_perm s) /\
       (forall u, In u (ct_nodes t) ->
          node_ok u /\
          (ci_off c <= ci_off (ct_info u) /\ ci_off (ct_info u) + ci_size (ct_info u) <= ci_off c + ci_size c) /\
          (pts_ok (st_perm st) c -> pts_ok (st_perm s) (ct_info u)))) ->
      (forall ks lo hi st s ts, build_list f st ks = Some (s, ts) ->
       tiles lo hi (map os_of ks) -> hi <= length (st_perm st) ->
       (forall k, In k ks -> pts_ok (st_perm st) k) ->
       upd lo hi (st_perm st) (st_perm s) /\
       (forall t u, In t ts -> In u (ct_nodes t) ->
          node_ok u /\
          (lo <= ci_off (ct_info u) /\ ci_off (ct_info u) + ci_size (ct_info u) <= hi) /\
          pts_ok (st_perm s) (ct_info u)))).
    { intros f HB. induction ks as [|k ks IH]; cbn [ClusterModel.build_list]; intros lo hi st s ts H Ht Hb Hp.
      - injection H as <- <-. simpl in Ht. subst. split; [apply upd_refl; lia|intros t u []].
      - destruct (build_list f st ks) as [[s1 ts1]|] eqn:E; [|discriminate].
        destruct (build f s1 k) as [[s2 t]|] eqn:E2; [|discriminate].
        injection H as <- <-. simpl in Ht. destruct Ht as [<- Ht].
        pose proof (tiles_le _ _ _ Ht) as Hle.
        destruct (IH _ _ _ _ _ E Ht Hb) as [U1 N1].
        { intros k' Hk'. apply Hp. right; exact Hk'. }
        pose proof (upd_length _ _ _ _ _ U1) as L1.
        destruct (HB _ _ _ _ E2) as [U2 N2]; [lia|].
        split.
        + eapply upd_trans.
          * eapply upd_widen; [exact U1| | |]; lia.
          * eapply upd_widen; [exact U2| | |]; lia.
        + intros t' u [<-|Ht'] Hu.
          * destruct (N2 u Hu) as (A & B & C). split; [exact A|]. split; [lia|].
            apply C. unfold pts_ok.
            rewrite (upd_slice_disjoint _ _ _ _ _ _ _ U1) by (left; lia).
            apply Hp. left; reflexivity.
          * destruct (N1 t' u Ht' Hu) as (A & B & C). split; [exact A|]. split; [lia|].
            unfold pts_ok. rewrite (upd_slice_disjoint _ _ _ _ _ _ _ U2) by (right; lia). exact C. }
    induction f as [|f IH].
    - split; [intros; discriminate|]. apply HL. intros; discriminate.
    - destruct IH as [IHb IHl].
      match goal with |- ?A /\ _ => assert (HB : A) end.
      { intros st c s t H Hb. rewrite build_S in H.
        destruct (step st c) as [[st' kids]|] eqn:Es; [|discriminate].
        destruct (build_list f st' kids) as [[s1 ts]|] eqn:El; [|discriminate].
        injection H as <- <-.
        destruct (step_spec _ _ _ _ Es Hb) as (U & Hk & Hpts).
        pose proof (upd_length _ _ _ _ _ U) as L.
        destruct Hk as [->|Hk].
        - simpl in El. injection El as <- <-. split; [exact U|].
          intros u [<-|[]]. split; [left; reflexivity|]. simpl. split; [lia|].
          intros Hc. unfold pts_ok in *. eapply perm_trans; [exact Hc|].
          apply upd_slice in U. replace (ci_off c + ci_size c - ci_off c) with (ci_size c) in U by lia. exact U.
        - destruct (IHl _ _ _ _ _ _ El Hk) as [U2 N2]; [lia| |].
          { intros k Hin. unfold pts_ok. rewrite (Hpts k Hin). reflexivity. }
          pose proof (upd_trans _ _ _ _ _ _ U U2) as U3.
          split; [exact U3|].
          intros u Hu. apply In_nodes_inv in Hu. destruct Hu as [->|(t & Ht & Hu)].
          + split; [|split; [simpl; lia|]].
            * right. simpl. rewrite interval_os, (build_list_info _ _ _ _ _ El). exact Hk.
            * simpl. intros Hc. unfold pts_ok in *. eapply perm_trans; [exact Hc|].
              apply upd_slice in U3. replace (ci_off c + ci_size c - ci_off c) with (ci_size c) in U3 by lia. exact U3.
          + destruct (N2 t u Ht Hu) as (A & B & C). auto. }
      split; [exact HB|]. apply HL, HB.
  Qed.

End Proofs.

(** ** Induction on cluster trees *)

Fixpoint ctree_ind' (Q : ctree -> Prop)
  (H : forall c ts, (forall t, In t ts -> Q t) -> Q (CNode c ts)) (t : ctree) : Q t :=
  match t with
  | CNode c ts =>
      H c ts ((fix go (l : list ctree) : forall t, In t l -> Q t :=
                 match l return forall t, In t l -> Q t with
                 | [] => fun t Ht => match Ht with end
                 | x :: l' => fun t Ht =>
                     match Ht with
                     | or_introl e => eq_ind x Q (ctree_ind' Q H x) t e
                     | or_intror Ht' => go l' t Ht'
                     end
                 end) ts)
  end.

Lemma filter_concat : forall A (p : A -> bool) ls, filter p (concat ls) = concat (map (filter p) ls).
Proof. induction ls as [|l ls IH]; simpl; auto. rewrite filter_app, IH. reflexivity. Qed.

(** The nodes selected by [sel] in each child of a tiled cluster tile the cluster. *)
Lemma tiles_concat : forall (F : ctree -> list ctree) ts lo hi,
  tiles lo hi (map interval ts) ->
  (forall t, In t ts -> tiles (ci_off (ct_info t)) (ci_off (ct_info t) + ci_size (ct_info t)) (map interval (F t))) ->
  tiles lo hi (map interval (concat (map F ts))).
Proof.
  induction ts as [|t ts IH]; intros lo hi Ht HF; [exact Ht|].
  cbn [map] in Ht. destruct Ht as [<- Ht]. cbn [map concat]. rewrite map_app.
  eapply tiles_app.
  - apply HF. left; reflexivity.
  - apply IH; [exact Ht|]. intros t' Ht'. apply HF. right; exact Ht'.
Qed.

Lemma leaves_node : forall c t ts, ct_leaves (CNode c (t :: ts)) = concat (map ct_leaves (t :: ts)).
Proof.
  intros c t ts. unfold ct_leaves at 1. cbn [ct_nodes filter]. unfold is_leaf at 1. cbn [ct_children].
  rewrite filter_concat, map_map. reflexivity.
Qed.

Lemma leaves_tile : forall t, (forall u, In u (ct_nodes t) -> node_ok u) ->
  tiles (ci_off (ct_info t)) (ci_off (ct_info t) + ci_size (ct_info t)) (map interval (ct_leaves t)).
Proof.
  induction t as [c ts IH] using ctree_ind'; intros H.
  destruct ts as [|t ts].
  - unfold ct_leaves. simpl. auto.
  - rewrite leaves_node. cbn [ct_info]. apply tiles_concat.
    + destruct (H _ (In_nodes_root _)) as [E|E]; [discriminate|exact E].
    + intros t' Ht'. apply (IH t' Ht'). intros u Hu. apply H. eapply In_nodes_child; eauto.
Qed.

(** ** Splitting strategies *)

Lemma tiles_regular : forall k off cs, tiles off (off + cs * k) (map (fun p => (off + cs * p, cs)) (seq 0 k)).
Proof.
  induction k as [|k IH]; intros off cs.
  - simpl. lia.
  - rewrite seq_S, map_app. eapply tiles_app; [apply IH|]. simpl. split; [reflexivity|]. lia.
Qed.

Lemma regular_splitting_tiles : forall min c perm nc l,
  regular_splitting min c perm nc = Some l -> l = [] \/ tiles (ci_off c) (ci_off c + ci_size c) l.
Proof.
  intros min c perm nc l H. unfold regular_splitting in H.
  destruct (Nat.eqb_spec nc 0); [discriminate|].
  destruct (Nat.ltb_spec min (ci_size c / nc)) as [Hm|Hm]; injection H as <-; [right|left; reflexivity].
  set (cs := ci_size c / nc) in *.
  assert (Hcs : nc * cs <= ci_size c) by (apply Nat.mul_div_le; lia).
  eapply tiles_app; [apply tiles_regular|]. simpl. split; [reflexivity|]. nia.
Qed.

Lemma regular_splitting_length : forall min c perm nc l,
  regular_splitting min c perm nc = Some l -> l = [] \/ length l = nc.
Proof.
  intros min c perm nc l H. unfold regular_splitting in H.
  destruct (Nat.eqb_spec nc 0); [discriminate|].
  destruct (min <? ci_size c / nc); injection H as <-; [right|left; reflexivity].
  rewrite app_length, map_length, seq_length. simpl. lia.
Qed.

Lemma find_pos_bounds : forall far perm len count,
  count <= find_pos far perm count len <= count + len.
Proof.
  induction len as [|len IH]; intros count; simpl; [lia|].
  destruct (far (nth count perm 0)); [lia|]. specialize (IH (S count)). lia.
Qed.

Lemma geometric_loop_length : forall far perm stop k count first,
  length (fst (geometric_loop far perm stop k count first)) = k.
Proof.
  induction k as [|k IH]; intros count first; cbn [geometric_loop]; [reflexivity|].
  destruct (find_pos (far first) perm count (stop - count) =? length perm).
  - cbn [fst]. apply repeat_length.
  - specialize (IH (find_pos (far first) perm count (stop - count))
                   (nth (find_pos (far first) perm count (stop - count)) perm 0)).
    destruct (geometric_loop _ _ _ _ _ _) as [l cf]. cbn [fst length] in *. lia.
Qed.

Lemma geometric_loop_tiles : forall far perm stop k count first l cf min,
  geometric_loop far perm stop k count first = (l, cf) -> count <= stop ->
  forallb (fun os => min <? snd os) l = true ->
  tiles count cf l /\ cf <= stop /\ fold_right plus 0 (map snd l) = cf - count.
Proof.
  induction k as [|k IH]; intros count first l cf min H Hc Hf; cbn [geometric_loop] in H.
  - injection H as <- <-. simpl. lia.
  - destruct (find_pos (far first) perm count (stop - count) =? length perm).
    { injection H as <- <-. simpl in Hf. discriminate. }
    pose proof (find_pos_bounds (far first) perm (stop - count) count) as Hb.
    set (r := find_pos (far first) perm count (stop - count)) in *.
    destruct (geometric_loop far perm stop k r (nth r perm 0)) as [l' cf'] eqn:E.
    injection H as <- <-. cbn [forallb] in Hf. apply andb_true_iff in Hf. destruct Hf as [Hf1 Hf2].
    destruct (IH _ _ _ _ _ E ltac:(lia) Hf2) as (A & B & C).
    pose proof (tiles_le _ _ _ A).
    split; [|split; [lia|]].
    + cbn [tiles]. split; [reflexivity|]. replace (count + (r - count)) with r by lia. exact A.
    + cbn [map fold_right snd]. lia.
Qed.

Lemma geometric_splitting_tiles : forall far min c perm nc l,
  geometric_splitting far min c perm nc = Some l -> l = [] \/ tiles (ci_off c) (ci_off c + ci_size c) l.
Proof.
  intros far min c perm nc l H. unfold geometric_splitting in H.
  destruct (nc <? ci_size c); [|injection H as <-; left; reflexivity].
  destruct (nc =? 0); [discriminate|].
  destruct (geometric_loop _ _ _ _ _ _) as [l' cf] eqn:E.
  destruct (forallb _ (l' ++ _)) eqn:Hf; [|eapply regular_splitting_tiles; eauto].
  injection H as <-. right. rewrite forallb_app in Hf. apply andb_true_iff in Hf. destruct Hf as [Hf _].
  destruct (geometric_loop_tiles _ _ _ _ _ _ _ _ _ E ltac:(lia) Hf) as (A & B & C).
  pose proof (tiles_le _ _ _ A).
  eapply tiles_app; [exact A|]. cbn [tiles]. split; [reflexivity|]. lia.
Qed.

Lemma geometric_splitting_length : forall far min c perm nc l,
  geometric_splitting far min c perm nc = Some l -> l = [] \/ length l = nc.
Proof.
  intros far min c perm nc l H. unfold geometric_splitting in H.
  destruct (nc <? ci_size c); [|injection H as <-; left; reflexivity].
  destruct (Nat.eqb_spec nc 0) as [Hn|Hn]; [discriminate|].
  pose proof (geometric_loop_length far perm (ci_off c + ci_size c) (nc - 1) (ci_off c) (nth (ci_off c) perm 0)) as HL.
  destruct (geometric_loop _ _ _ _ _ _) as [l' cf] eqn:E. cbn [fst] in HL.
  destruct (forallb _ (l' ++ _)) eqn:Hf; [|eapply regular_splitting_length; eauto].
  injection H as <-. right. rewrite app_length. cbn [length]. lia.
Qed.
