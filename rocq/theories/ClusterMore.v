(** * Given partitions, sizes, termination, renumbering. *)

From Coq Require Import List Arith ZArith Bool Permutation Lia.
From Verif Require Import ClusterModel ClusterSpec ClusterProofs ClusterPartition.
Import ListNotations.

(** ** The strategies satisfy the contract *)

Lemma regular_splitting_pos : forall min c perm nc l os,
  regular_splitting min c perm nc = Some l -> In os l -> min < snd os.
Proof.
  intros min c perm nc l os H Hin. unfold regular_splitting in H.
  destruct (Nat.eqb_spec nc 0); [discriminate|].
  destruct (Nat.ltb_spec min (ci_size c / nc)) as [Hm|Hm]; injection H as <-; [|contradiction].
  set (cs := ci_size c / nc) in *.
  assert (Hcs : nc * cs <= ci_size c) by (apply Nat.mul_div_le; lia).
  apply in_app_or in Hin. destruct Hin as [Hin|[<-|[]]].
  - apply in_map_iff in Hin. destruct Hin as (p & <- & _). exact Hm.
  - simpl. nia.
Qed.

Lemma geometric_splitting_pos : forall far min c perm nc l os,
  geometric_splitting far min c perm nc = Some l -> In os l -> min < snd os.
Proof.
  intros far min c perm nc l os H Hin. unfold geometric_splitting in H.
  destruct (nc <? ci_size c); [|injection H as <-; contradiction].
  destruct (nc =? 0); [discriminate|].
  destruct (geometric_loop _ _ _ _ _ _) as [l' cf] eqn:E.
  destruct (forallb _ (l' ++ _)) eqn:Hf; [|eapply regular_splitting_pos; eauto].
  injection H as <-. rewrite forallb_forall in Hf. apply Hf in Hin. apply Nat.ltb_lt in Hin. exact Hin.
Qed.

Lemma splitting_of_pos : forall s min c perm nc l os,
  splitting_of s min c perm nc = Some l -> In os l -> min < snd os.
Proof.
  intros [|far] min c perm nc l os H Hin; [eapply regular_splitting_pos|eapply geometric_splitting_pos]; eauto.
Qed.

Lemma splitting_of_ok : forall s min, splitter_ok (splitting_of s min).
Proof.
  intros s min c perm nc l H.
  assert (Hpos : forall os, In os l -> 0 < snd os).
  { intros os Hin. pose proof (splitting_of_pos _ _ _ _ _ _ _ H Hin). lia. }
  destruct s as [|far]; simpl in H.
  - destruct (regular_splitting_tiles _ _ _ _ _ H); auto.
    destruct (regular_splitting_length _ _ _ _ _ H); auto.
  - destruct (geometric_splitting_tiles _ _ _ _ _ _ H); auto.
    destruct (geometric_splitting_length _ _ _ _ _ _ H); auto.
Qed.

Lemma splitting_of_total : forall s min, splitter_total (splitting_of s min).
Proof.
  assert (HR : forall min, splitter_total (regular_splitting min)).
  { intros min c perm nc H. unfold regular_splitting.
    destruct (Nat.eqb_spec nc 0); [lia|]. destruct (_ <? _); discriminate. }
  intros [|far] min c perm nc H; simpl; [apply HR, H|].
  unfold geometric_splitting. destruct (nc <? ci_size c); [|discriminate].
  destruct (Nat.eqb_spec nc 0); [lia|].
  destruct (geometric_loop _ _ _ _ _ _) as [l' cf].
  destruct (forallb _ _); [discriminate|]. apply HR, H.
Qed.

Lemma splitter_ok_tiles : forall sp, splitter_ok sp -> forall c perm nc l,
  sp c perm nc = Some l -> l = [] \/ tiles (ci_off c) (ci_off c + ci_size c) l.
Proof. intros sp H c perm nc l E. destruct (H _ _ _ _ E) as [|(?&?&?)]; auto. Qed.

Lemma splitter_ok_length : forall sp, splitter_ok sp -> forall c perm nc l,
  sp c perm nc = Some l -> l = [] \/ length l = nc.
Proof. intros sp H c perm nc l E. destruct (H _ _ _ _ E) as [|(?&?&?)]; auto. Qed.

Lemma tiles_two_smaller : forall l lo hi os, tiles lo hi l -> 2 <= length l ->
  (forall x, In x l -> 0 < snd x) -> In os l -> snd os < hi - lo.
Proof.
  assert (S1 : forall l lo hi, tiles lo hi l -> l <> [] -> (forall x, In x l -> 0 < snd x) -> lo < hi).
  { intros [|[o s] l] lo hi H Hne Hp; [congruence|]. simpl in H. destruct H as [-> H].
    apply tiles_le in H. specialize (Hp (lo, s) (or_introl eq_refl)). simpl in Hp. lia. }
  intros [|[o s] l] lo hi os H Hl Hp Hin; [contradiction|].
  simpl in H. destruct H as [-> H]. simpl in Hl.
  assert (Hp' : forall x, In x l -> 0 < snd x) by (intros x Hx; apply Hp; right; exact Hx).
  assert (lo + s < hi).
  { eapply S1; eauto. destruct l; simpl in *; [lia|discriminate]. }
  destruct Hin as [<-|Hin]; simpl; [lia|].
  destruct os as [o' s']. destruct (tiles_In _ _ _ _ _ H Hin). simpl.
  specialize (Hp (lo, s) (or_introl eq_refl)). simpl in Hp. lia.
Qed.

Section More.
  Variable sorter : cinfo -> list nat -> list nat.
  Variable splitter : cinfo -> list nat -> nat -> option (list (nat * nat)).
  Variable P : bparams.
  Notation step := (step sorter splitter P).
  Notation build := (build sorter splitter P).
  Notation build_list := (build_list sorter splitter P).

  (** Each node of the tree was processed by one step. *)
  Lemma build_nodes : forall f,
    (forall st c s t, build f st c = Some (s, t) -> forall u, In u (ct_nodes t) ->
       exists st0 st1, step st0 (ct_info u) = Some (st1, map ct_info (ct_children u))) /\
    (forall ks st s ts, build_list f st ks = Some (s, ts) -> forall t u, In t ts -> In u (ct_nodes t) ->
       exists st0 st1, step st0 (ct_info u) = Some (st1, map ct_info (ct_children u))).
  Proof.
    assert (HL : forall f,
     (forall st c s t, build f st c = Some (s, t) -> forall u, In u (ct_nodes t) ->
       exists st0 st1, step st0 (ct_info u) = Some (st1, map ct_info (ct_children u))) ->
     (forall ks st s ts, build_list f st ks = Some (s, ts) -> forall t u, In t ts -> In u (ct_nodes t) ->
       exists st0 st1, step st0 (ct_info u) = Some (st1, map ct_info (ct_children u)))).
    { intros f HB. induction ks as [|k ks IH]; cbn [ClusterModel.build_list]; intros st s ts H t u Ht Hu.
      - injection H as <- <-. contradiction.
      - destruct (build_list f st ks) as [[s1 ts1]|] eqn:E; [|discriminate].
        destruct (build f s1 k) as [[s2 t2]|] eqn:E2; [|discriminate].
        injection H as <- <-. destruct Ht as [<-|Ht]; eauto. }
    induction f as [|f [IHb IHl]].
    - split; [intros; discriminate|]. apply HL. intros; discriminate.
    - match goal with |- ?A /\ _ => assert (HB : A) end.
      { intros st c s t H u Hu. rewrite build_S in H.
        destruct (step st c) as [[st' kids]|] eqn:Es; [|discriminate].
        destruct (build_list f st' kids) as [[s1 ts]|] eqn:El; [|discriminate].
        injection H as <- <-. destruct (In_nodes_inv _ _ _ Hu) as [->|(t & Ht & Hu')]; [|eauto].
        exists st, st'. cbn [ct_info ct_children]. rewrite (build_list_info _ _ _ _ _ _ _ _ El). exact Es. }
      split; [exact HB|]. apply HL, HB.
  Qed.

  (** *** Termination *)

  Hypothesis Hok : splitter_ok splitter.
  Hypothesis Htot : splitter_total splitter.

  Definition fuel_for (c : cinfo) : nat := ci_size c + (if ci_depth c =? 0 then 2 else 1).

  Lemma step_total : forall st c, 1 <= current_nc P c -> step st c <> None.
  Proof.
    intros st c H. unfold ClusterModel.step.
    destruct (splitter _ _ _) as [spl|] eqn:E; [|exfalso; eapply Htot; eauto].
    destruct (child_infos _ _ _ _ _); [destruct (_ <? _)%Z|]; discriminate.
  Qed.

  Lemma build_total : 2 <= bp_nc P -> 1 <= bp_sp P ->
    (bp_given P = None -> bp_nc P <= bp_sp P -> 1 <= part_depth P) ->
    forall f st c, fuel_for c <= f -> build f st c <> None.
  Proof.
    intros Hnc Hsp Hpd. induction f as [|f IH]; intros st c Hf.
    - unfold fuel_for in Hf. destruct (ci_depth c =? 0); lia.
    - rewrite build_S.
      assert (Hcur : 1 <= current_nc P c /\ (ci_depth c <> 0 -> 2 <= current_nc P c)).
      { unfold current_nc, on_level, level_children, part_depth.
        destruct (bp_given P) as [g|]; [lia|].
        destruct (Nat.leb_spec (bp_nc P) (bp_sp P)).
        - destruct (S (ci_depth c) =? bp_logdepth P); lia.
        - destruct (Nat.eqb_spec (S (ci_depth c)) 1); lia. }
      destruct Hcur as [Hc1 Hc2].
      destruct (step st c) as [[st' kids]|] eqn:Es; [|exfalso; eapply step_total; eauto].
      destruct (step_links _ _ _ _ _ _ _ Es) as (perm1 & spl & Hspl & Ek & _).
      assert (Hkf : forall k, In k kids -> fuel_for k <= f).
      { intros k Hk. pose proof Hk as Hk'. rewrite Ek in Hk'. pose proof (child_infos_depth _ _ _ _ _ _ Hk') as Hdk.
        assert (Hin : In (os_of k) spl).
        { rewrite <- (child_infos_os P c perm1 spl 0), <- Ek. apply in_map, Hk. }
        destruct (Hok _ _ _ _ Hspl) as [->|(Ht & Hl & Hp)]; [contradiction|].
        unfold fuel_for in *. rewrite Hdk. cbn [Nat.eqb].
        destruct (Nat.eqb_spec (ci_depth c) 0) as [E0|E0].
        - destruct (tiles_In _ _ _ _ _ Ht Hin). cbn [os_of] in *. lia.
        - pose proof (tiles_two_smaller _ _ _ _ Ht ltac:(rewrite Hl; auto) Hp Hin) as Hs. simpl in Hs. lia. }
      assert (HL : forall l st0, (forall k, In k l -> fuel_for k <= f) -> build_list f st0 l <> None).
      { induction l as [|k l IHl]; intros st0 Hin; cbn [ClusterModel.build_list]; [discriminate|].
        destruct (build_list f st0 l) as [[s1 ts1]|] eqn:E.
        - destruct (build f s1 k) as [[s2 t2]|] eqn:E2; [discriminate|].
          exfalso. eapply IH; [|exact E2]. apply Hin. left; reflexivity.
        - exfalso. eapply IHl; [|exact E]. intros k' Hk'. apply Hin. right; exact Hk'. }
      destruct (build_list f st' kids) as [[s ts]|] eqn:El; [discriminate|].
      exfalso. eapply HL; [|exact El]. exact Hkf.
  Qed.
End More.

(** ** nc = 1: no progress *)

Lemma regular_one : forall min c perm, min < ci_size c ->
  regular_splitting min c perm 1 = Some [(ci_off c, ci_size c)].
Proof.
  intros min c perm H. unfold regular_splitting. cbn [Nat.eqb]. rewrite Nat.div_1_r.
  destruct (Nat.ltb_spec min (ci_size c)); [|lia]. simpl. rewrite !Nat.mul_0_r, Nat.add_0_r, Nat.sub_0_r. reflexivity.
Qed.

Lemma build_one_diverges : forall sorter P d, bp_nc P = 1 ->
  (forall c, on_level P c = true -> S (ci_depth c) <= d) ->
  forall f st c, d <= ci_depth c -> bp_min P < ci_size c ->
  build sorter (regular_splitting (bp_min P)) P f st c = None.
Proof.
  intros sorter P d Hnc Hd. induction f as [|f IH]; intros st c Hc Hm; [reflexivity|].
  rewrite build_S. unfold step.
  assert (Eo : on_level P c = false).
  { destruct (on_level P c) eqn:E; auto. apply Hd in E. lia. }
  assert (Hcur : current_nc P c = 1) by (unfold current_nc; rewrite Eo; exact Hnc).
  rewrite Hcur, regular_one by exact Hm.
  cbn [child_infos child_info]. cbn [build_list].
  rewrite IH; [reflexivity| |]; cbn [ci_depth ci_size]; lia.
Qed.

(** ** Given partition: disjoint parts *)

Section Given.
  Variable sorter : cinfo -> list nat -> list nat.
  Variable splitter : cinfo -> list nat -> nat -> option (list (nat * nat)).
  Variable P : bparams.
  Notation build := (build sorter splitter P).
  Notation build_list := (build_list sorter splitter P).
  Hypothesis Hsort : sorter_ok sorter.
  Hypothesis Hok : splitter_ok splitter.

  (** In range is enough for the permutation. *)
  Lemma build_list_perm : forall f ks st s ts, build_list f st ks = Some (s, ts) ->
    (forall k, In k ks -> ci_off k + ci_size k <= length (st_perm st)) ->
    Permutation (st_perm st) (st_perm s).
  Proof.
    induction ks as [|k ks IH]; cbn [ClusterModel.build_list]; intros st s ts H Hb.
    - injection H as <- <-. reflexivity.
    - destruct (build_list f st ks) as [[s1 ts1]|] eqn:E; [|discriminate].
      destruct (build f s1 k) as [[s2 t2]|] eqn:E2; [|discriminate].
      injection H as <- <-.
      assert (P1 : Permutation (st_perm st) (st_perm s1)) by (eapply IH; eauto; intros; apply Hb; right; auto).
      eapply perm_trans; [exact P1|].
      pose proof (Permutation_length P1) as L.
      destruct (proj1 (build_inv sorter splitter P Hsort (splitter_ok_tiles _ Hok) f) _ _ _ _ E2) as [U _].
      { rewrite <- L. apply Hb. left; reflexivity. }
      eapply upd_perm; eauto.
  Qed.

  Lemma build_list_outside : forall f ks st s ts off sz, build_list f st ks = Some (s, ts) ->
    (forall k, In k ks -> ci_off k + ci_size k <= length (st_perm st)) ->
    (forall k, In k ks -> disjoint_iv (os_of k) (off, sz)) ->
    slice off sz (st_perm s) = slice off sz (st_perm st).
  Proof.
    induction ks as [|k ks IH]; cbn [ClusterModel.build_list]; intros st s ts off sz H Hb Hdj.
    - injection H as <- <-. reflexivity.
    - destruct (build_list f st ks) as [[s1 ts1]|] eqn:E; [|discriminate].
      destruct (build f s1 k) as [[s2 t2]|] eqn:E2; [|discriminate].
      injection H as <- <-.
      assert (P1 : Permutation (st_perm st) (st_perm s1))
        by (eapply build_list_perm; eauto; intros; apply Hb; right; auto).
      pose proof (Permutation_length P1) as L.
      destruct (proj1 (build_inv sorter splitter P Hsort (splitter_ok_tiles _ Hok) f) _ _ _ _ E2) as [U _].
      { rewrite <- L. apply Hb. left; reflexivity. }
      rewrite (upd_slice_disjoint _ _ _ _ _ off sz U).
      + eapply IH; eauto; intros; [apply Hb|apply Hdj]; right; auto.
      + specialize (Hdj k (or_introl eq_refl)). unfold disjoint_iv in Hdj. simpl in Hdj. lia.
  Qed.

  Lemma build_list_disjoint : forall f ks st s ts, build_list f st ks = Some (s, ts) ->
    (forall k, In k ks -> ci_off k + ci_size k <= length (st_perm st)) ->
    ForallOrdPairs disjoint_iv (map os_of ks) ->
    (forall k, In k ks -> pts_ok (st_perm st) k) ->
    forall t u, In t ts -> In u (ct_nodes t) -> node_ok u /\ pts_ok (st_perm s) (ct_info u).
  Proof.
    induction ks as [|k ks IH]; cbn [ClusterModel.build_list]; intros st s ts H Hb Hdj Hp t u Ht Hu.
    - injection H as <- <-. contradiction.
    - destruct (build_list f st ks) as [[s1 ts1]|] eqn:E; [|discriminate].
      destruct (build f s1 k) as [[s2 t2]|] eqn:E2; [|discriminate].
      injection H as <- <-.
      cbn [map] in Hdj. inversion Hdj as [|a l Hf Hr]; subst.
      assert (Hb' : forall k', In k' ks -> ci_off k' + ci_size k' <= length (st_perm st))
        by (intros; apply Hb; right; auto).
      assert (P1 : Permutation (st_perm st) (st_perm s1)) by (eapply build_list_perm; eauto).
      pose proof (Permutation_length P1) as L.
      destruct (proj1 (build_inv sorter splitter P Hsort (splitter_ok_tiles _ Hok) f) _ _ _ _ E2) as [U N].
      { rewrite <- L. apply Hb. left; reflexivity. }
      destruct Ht as [<-|Ht].
      + destruct (N u Hu) as (A & _ & C). split; [exact A|]. apply C.
        unfold pts_ok. erewrite (build_list_outside f ks st s1 ts1); eauto.
        * apply Hp. left; reflexivity.
        * intros k' Hk'. rewrite Forall_forall in Hf. specialize (Hf (os_of k') (in_map _ _ _ Hk')).
          unfold disjoint_iv in *. simpl in *. lia.
      + destruct (IH st s1 ts1 E Hb' Hr (fun k' Hk' => Hp k' (or_intror Hk')) t u Ht Hu) as [A C].
        split; [exact A|]. unfold pts_ok.
        (* u lies in one of the other parts, disjoint from k *)
        assert (Hin : exists k', In k' ks /\ ci_off k' <= ci_off (ct_info u) /\
                   ci_off (ct_info u) + ci_size (ct_info u) <= ci_off k' + ci_size k').
        { clear - E Ht Hu Hb' Hsort Hok.
          revert s1 ts1 E Ht. induction ks as [|k ks IH]; cbn [ClusterModel.build_list]; intros s1 ts1 E Ht.
          - injection E as <- <-. contradiction.
          - destruct (build_list f st ks) as [[s3 ts3]|] eqn:E3; [|discriminate].
            destruct (build f s3 k) as [[s4 t4]|] eqn:E4; [|discriminate].
            injection E as <- <-. destruct Ht as [<-|Ht].
            + exists k. split; [left; reflexivity|].
              assert (P1 : Permutation (st_perm st) (st_perm s3))
                by (eapply build_list_perm; eauto; intros; apply Hb'; right; auto).
              pose proof (Permutation_length P1) as L.
              destruct (proj1 (build_inv sorter splitter P Hsort (splitter_ok_tiles _ Hok) f) _ _ _ _ E4) as [U N].
              { rewrite <- L. apply Hb'. left; reflexivity. }
              destruct (N u Hu) as (_ & B & _). exact B.
            + edestruct IH as (k' & Hk' & B); [|reflexivity|exact Ht|exists k'; split; [right; exact Hk'|exact B]].
              intros; apply Hb'; right; auto. }
        destruct Hin as (k' & Hk' & B1 & B2).
        rewrite (upd_slice_disjoint _ _ _ _ _ _ _ U).
        * exact C.
        * rewrite Forall_forall in Hf. specialize (Hf (os_of k') (in_map _ _ _ Hk')).
          unfold disjoint_iv in Hf. simpl in Hf. lia.
  Qed.
End Given.

Lemma given_children_os : forall P l p, map os_of (given_children P p l) = l.
Proof. induction l as [|[o s] l IH]; simpl; intros p; auto. f_equal. apply IH. Qed.

Lemma given_children_length : forall P l p, length (given_children P p l) = length l.
Proof. induction l as [|[o s] l IH]; simpl; intros p; auto. Qed.

Lemma given_children_nth : forall P l p i os, nth_error l i = Some os ->
  nth_error (given_children P p l) i = Some (given_child P (p + i) os).
Proof.
  induction l as [|os' l IH]; intros p i os H; destruct i; simpl in *; try discriminate.
  - injection H as ->. rewrite Nat.add_0_r. reflexivity.
  - rewrite (IH _ _ _ H). do 2 f_equal. lia.
Qed.

Lemma given_children_ranks : forall P l p, map ci_rank (given_children P p l) = map Z.of_nat (seq p (length l)).
Proof. induction l as [|os l IH]; simpl; intros p; auto. f_equal. apply IH. Qed.

Lemma given_children_pts : forall P l p k, In k (given_children P p l) ->
  ci_pts k = slice (ci_off k) (ci_size k) (seq 0 (bp_n P)) /\ ci_depth k = 1.
Proof. induction l as [|os l IH]; simpl; intros p k H; [contradiction|]. destruct H as [<-|H]; simpl; eauto. Qed.

Lemma slice_seq : forall n off sz, off + sz <= n -> slice off sz (seq 0 n) = seq off sz.
Proof.
  intros n off sz H. unfold slice.
  replace n with (off + (sz + (n - off - sz))) by lia.
  rewrite seq_app. rewrite skipn_app, skipn_all2 by (rewrite seq_length; lia).
  rewrite seq_length, Nat.sub_diag. cbn [skipn app]. rewrite seq_app.
  rewrite firstn_app, seq_length, Nat.sub_diag, firstn_all2 by (rewrite seq_length; lia).
  cbn [firstn]. rewrite app_nil_r. reflexivity.
Qed.

(** ** Renumbering *)

Lemma list_set_nth_error : forall A (l : list A) i x j,
  nth_error (list_set l i x) j = if (j =? i) && (i <? length l) then Some x else nth_error l j.
Proof.
  induction l as [|y l IH]; intros i x j.
  - unfold list_set. rewrite firstn_nil, skipn_nil. simpl. rewrite andb_false_r. destruct j; reflexivity.
  - destruct i as [|i].
    + unfold list_set. simpl. destruct j; reflexivity.
    + rewrite list_set_cons. destruct j; [reflexivity|]. cbn [nth_error Nat.eqb length]. rewrite IH.
      replace (S i <? S (length l)) with (i <? length l); [reflexivity|].
      destruct (Nat.ltb_spec i (length l)), (Nat.ltb_spec (S i) (S (length l))); auto; lia.
Qed.

(** The two loops succeed exactly when all indices are in range. *)
Definition loc_ok (perm : list nat) (off bound : nat) (i len : nat) : Prop :=
  forall j, i <= j < i + len -> exists u, nth_error perm (off + j) = Some u /\ off <= u < off + bound.

Lemma gather_spec : forall A (perm : list nat) off (inp : list A) len i out,
  i + len <= length out -> loc_ok perm off (length inp) i len ->
  exists r, gather perm off inp out i len = Some r /\ length r = length out /\
    (forall j, i <= j < i + len -> exists u, nth_error perm (off + j) = Some u /\ nth_error r j = nth_error inp (u - off)) /\
    (forall j, ~ (i <= j < i + len) -> nth_error r j = nth_error out j).
Proof.
  induction len as [|len IH]; intros i out Hl Hok.
  - exists out. simpl. repeat split; auto. intros j Hj. lia.
  - destruct (Hok i ltac:(lia)) as (u & Hu & Hb1 & Hb2). cbn [gather]. rewrite Hu.
    destruct (Nat.leb_spec off u); [|lia]. destruct (Nat.ltb_spec i (length out)); [|lia]. cbn [andb].
    destruct (nth_error inp (u - off)) as [x|] eqn:Ex; [|apply nth_error_None in Ex; lia].
    destruct (IH (S i) (list_set out i x)) as (r & Hr & Hlen & H1 & H2).
    { rewrite list_set_length. lia. }
    { intros j Hj. apply Hok. lia. }
    rewrite list_set_length in Hlen.
    exists r. split; [exact Hr|]. split; [exact Hlen|]. split.
    + intros j Hj. destruct (Nat.eq_dec j i) as [->|Hne].
      * exists u. split; [exact Hu|]. rewrite H2 by lia. rewrite list_set_nth_error, Nat.eqb_refl.
        destruct (Nat.ltb_spec i (length out)); [|lia]. simpl. congruence.
      * apply H1. lia.
    + intros j Hj. rewrite H2 by lia. rewrite list_set_nth_error.
      destruct (Nat.eqb_spec j i); [lia|]. reflexivity.
Qed.

Lemma gather_inv : forall A (perm : list nat) off (inp : list A) len i out r,
  gather perm off inp out i len = Some r -> loc_ok perm off (length inp) i len.
Proof.
  induction len as [|len IH]; intros i out r H j Hj; [lia|].
  cbn [gather] in H. destruct (nth_error perm (off + i)) as [u|] eqn:Eu; [|discriminate].
  destruct (Nat.leb_spec off u); [|discriminate]. destruct (Nat.ltb_spec i (length out)); [|discriminate].
  cbn [andb] in H. destruct (nth_error inp (u - off)) as [x|] eqn:Ex; [|discriminate].
  destruct (Nat.eq_dec j i) as [->|Hne].
  - exists u. split; [exact Eu|]. assert (u - off < length inp) by (apply nth_error_Some; congruence). lia.
  - eapply IH; [exact H|]. lia.
Qed.

Lemma scatter_spec : forall A (perm : list nat) off (inp : list A) len i out,
  i + len <= length inp -> loc_ok perm off (length out) i len ->
  (forall j k, i <= j < i + len -> i <= k < i + len -> nth_error perm (off + j) = nth_error perm (off + k) -> j = k) ->
  exists r, scatter perm off inp out i len = Some r /\ length r = length out /\
    (forall j, i <= j < i + len -> exists u, nth_error perm (off + j) = Some u /\ nth_error r (u - off) = nth_error inp j) /\
    (forall v, (forall j, i <= j < i + len -> nth_error perm (off + j) <> Some (off + v)) -> nth_error r v = nth_error out v).
Proof.
  induction len as [|len IH]; intros i out Hl Hok Hinj.
  - exists out. simpl. repeat split; auto. intros j Hj. lia.
  - destruct (Hok i ltac:(lia)) as (u & Hu & Hb1 & Hb2). cbn [scatter]. rewrite Hu.
    destruct (nth_error inp i) as [x|] eqn:Ex; [|apply nth_error_None in Ex; lia].
    destruct (Nat.leb_spec off u); [|lia]. destruct (Nat.ltb_spec (u - off) (length out)); [|lia]. cbn [andb].
    destruct (IH (S i) (list_set out (u - off) x)) as (r & Hr & Hlen & H1 & H2).
    { lia. }
    { rewrite list_set_length. intros j Hj. apply Hok. lia. }
    { intros j k Hj Hk. apply Hinj; lia. }
    rewrite list_set_length in Hlen.
    exists r. split; [exact Hr|]. split; [exact Hlen|]. split.
    + intros j Hj. destruct (Nat.eq_dec j i) as [->|Hne].
      * exists u. split; [exact Hu|]. rewrite H2.
        { rewrite list_set_nth_error, Nat.eqb_refl. destruct (Nat.ltb_spec (u - off) (length out)); [|lia].
          simpl. congruence. }
        { intros k Hk Ek. replace (off + (u - off)) with u in Ek by lia.
          assert (i = k) by (apply Hinj; [lia|lia|congruence]). lia. }
      * apply H1. lia.
    + intros v Hv. rewrite H2.
      * rewrite list_set_nth_error. destruct (Nat.eqb_spec v (u - off)) as [->|]; [|reflexivity].
        exfalso. apply (Hv i ltac:(lia)). rewrite Hu. f_equal. lia.
      * intros j Hj. apply Hv. lia.
Qed.

Lemma scatter_inv : forall A (perm : list nat) off (inp : list A) len i out r,
  scatter perm off inp out i len = Some r -> loc_ok perm off (length out) i len.
Proof.
  induction len as [|len IH]; intros i out r H j Hj; [lia|].
  cbn [scatter] in H. destruct (nth_error perm (off + i)) as [u|] eqn:Eu; [|discriminate].
  destruct (nth_error inp i) as [x|] eqn:Ex; [|discriminate].
  destruct (Nat.leb_spec off u); [|discriminate]. destruct (Nat.ltb_spec (u - off) (length out)); [|discriminate].
  cbn [andb] in H. destruct (Nat.eq_dec j i) as [->|Hne].
  - exists u. split; [exact Eu|]. lia.
  - apply IH in H. rewrite list_set_length in H. apply H. lia.
Qed.

Lemma nth_error_slice : forall A (l : list A) off sz j, j < sz -> nth_error (slice off sz l) j = nth_error l (off + j).
Proof.
  intros A l off sz j H. unfold slice.
  assert (F : forall (m : list A) n k, k < n -> nth_error (firstn n m) k = nth_error m k).
  { induction m as [|y m IH]; intros n k Hk; [rewrite firstn_nil; reflexivity|].
    destruct n; [lia|]. destruct k; [reflexivity|]. simpl. apply IH. lia. }
  rewrite F by exact H. clear F H.
  revert l. induction off as [|off IH]; intros l; [reflexivity|]. destruct l; simpl; [destruct j; reflexivity|apply IH].
Qed.

(** A slice is local exactly when it is a permutation of its interval. *)
Lemma loc_ok_perm : forall n perm off sz, Permutation perm (seq 0 n) -> off + sz <= n ->
  (loc_ok perm off sz 0 sz <-> Permutation (slice off sz perm) (seq off sz)).
Proof.
  intros n perm off sz Hp Hb.
  assert (Hlen : length perm = n) by (rewrite (Permutation_length Hp), seq_length; reflexivity).
  assert (Hnd : NoDup perm) by (eapply Permutation_NoDup; [apply Permutation_sym, Hp|apply seq_NoDup]).
  assert (HndS : NoDup (slice off sz perm)).
  { rewrite (slice_split _ perm off sz) in Hnd.
    assert (R : forall (l l' : list nat), NoDup (l ++ l') -> NoDup l').
    { induction l as [|y l IHl]; simpl; intros l' Q; auto. inversion Q; auto. }
    apply R in Hnd. clear - Hnd. induction (slice off sz perm) as [|x l IH]; [constructor|].
    simpl in Hnd. inversion Hnd; subst. constructor; [|auto]. intros Hin. apply H1. apply in_or_app. auto. }
  split; intros H.
  - apply NoDup_Permutation_bis; [exact HndS|rewrite slice_length, seq_length; lia|].
    intros u Hu. apply In_nth_error in Hu. destruct Hu as [j Hj].
    assert (j < sz).
    { assert (j < length (slice off sz perm)) by (apply nth_error_Some; congruence).
      rewrite slice_length in *; lia. }
    rewrite nth_error_slice in Hj by lia. destruct (H j ltac:(lia)) as (u' & E & B).
    apply in_seq. rewrite Hj in E. injection E as <-. lia.
  - intros j Hj. destruct (nth_error perm (off + j)) as [u|] eqn:E.
    + exists u. split; [reflexivity|].
      rewrite <- (nth_error_slice _ perm off sz) in E by lia. apply nth_error_In in E.
      apply (Permutation_in _ H) in E. apply in_seq in E. exact E.
    + apply nth_error_None in E. lia.
Qed.

Lemma nth_error_ext : forall A (l l' : list A), length l = length l' ->
  (forall i, i < length l -> nth_error l i = nth_error l' i) -> l = l'.
Proof.
  induction l as [|x l IH]; intros [|y l'] HL H; simpl in HL; try lia; auto.
  f_equal.
  - specialize (H 0 ltac:(simpl; lia)). simpl in H. congruence.
  - apply IH; [lia|]. intros i Hi. apply (H (S i)). simpl; lia.
Qed.

Section Renum.
  Variable A : Type.
  Variables (n off sz : nat) (perm : list nat).
  Hypothesis Hp : Permutation perm (seq 0 n).
  Hypothesis Hb : off + sz <= n.
  Hypothesis Hloc : Permutation (slice off sz perm) (seq off sz).

  Lemma renum_lok : loc_ok perm off sz 0 sz.
  Proof. apply (loc_ok_perm n); auto. Qed.

  Lemma renum_inj : forall j k, j < sz -> k < sz -> nth_error perm (off + j) = nth_error perm (off + k) -> j = k.
  Proof.
    intros j k Hj Hk E.
    assert (Hlen : length perm = n) by (rewrite (Permutation_length Hp), seq_length; reflexivity).
    assert (Hnd : NoDup perm) by (eapply Permutation_NoDup; [apply Permutation_sym, Hp|apply seq_NoDup]).
    rewrite NoDup_nth_error in Hnd. assert (off + j = off + k) by (apply Hnd; [lia|exact E]). lia.
  Qed.

  Lemma renum_surj : forall v, v < sz -> exists j, j < sz /\ nth_error perm (off + j) = Some (off + v).
  Proof.
    intros v Hv.
    assert (Hin : In (off + v) (slice off sz perm)).
    { apply (Permutation_in _ (Permutation_sym Hloc)). apply in_seq. lia. }
    apply In_nth_error in Hin. destruct Hin as [j Hj].
    assert (j < sz).
    { assert (j < length (slice off sz perm)) by (apply nth_error_Some; congruence).
      rewrite (Permutation_length Hloc), seq_length in *. lia. }
    exists j. split; [lia|]. rewrite nth_error_slice in Hj by lia. exact Hj.
  Qed.

  Lemma u2c_spec : forall (x out : list A), length x = sz -> length out = sz ->
    exists y, user_to_cluster off sz perm x out = Some y /\ length y = sz /\
      forall j, j < sz -> exists u, nth_error perm (off + j) = Some u /\ nth_error y j = nth_error x (u - off).
  Proof.
    intros x out Hx Ho. unfold user_to_cluster.
    destruct (gather_spec A perm off x sz 0 out) as (r & Hr & HL & H1 & _); [lia|rewrite Hx; apply renum_lok|].
    exists r. split; [exact Hr|]. split; [lia|]. intros j Hj. apply H1. lia.
  Qed.

  Lemma c2u_spec : forall (x out : list A), length x = sz -> length out = sz ->
    exists y, cluster_to_user off sz perm x out = Some y /\ length y = sz /\
      forall j, j < sz -> exists u, nth_error perm (off + j) = Some u /\ nth_error y (u - off) = nth_error x j.
  Proof.
    intros x out Hx Ho. unfold cluster_to_user.
    destruct (scatter_spec A perm off x sz 0 out) as (r & Hr & HL & H1 & _).
    - lia.
    - rewrite Ho; apply renum_lok.
    - intros j k Hj Hk. apply renum_inj; lia.
    - exists r. split; [exact Hr|]. split; [lia|]. intros j Hj. apply H1. lia.
  Qed.

  Lemma u2c_c2u : forall (x out out' : list A), length x = sz -> length out = sz -> length out' = sz ->
    exists y, user_to_cluster off sz perm x out = Some y /\ length y = sz /\
      (forall j, j < sz -> exists u, nth_error perm (off + j) = Some u /\ nth_error y j = nth_error x (u - off)) /\
      cluster_to_user off sz perm y out' = Some x.
  Proof.
    intros x out out' Hx Ho Ho'. destruct (u2c_spec x out Hx Ho) as (y & Hy & HL & H1).
    exists y. split; [exact Hy|]. split; [exact HL|]. split; [exact H1|].
    destruct (c2u_spec y out' HL Ho') as (z & Hz & HLz & H2). rewrite Hz. f_equal.
    apply nth_error_ext; [lia|]. intros v Hv.
    destruct (renum_surj v ltac:(lia)) as (j & Hj & Ej).
    destruct (H1 j Hj) as (u & Eu & E1). destruct (H2 j Hj) as (u' & Eu' & E2).
    rewrite Ej in Eu, Eu'. injection Eu as <-. injection Eu' as <-.
    replace (off + v - off) with v in * by lia. congruence.
  Qed.

  Lemma c2u_u2c : forall (x out out' : list A), length x = sz -> length out = sz -> length out' = sz ->
    exists y, cluster_to_user off sz perm x out = Some y /\ length y = sz /\
      (forall j, j < sz -> exists u, nth_error perm (off + j) = Some u /\ nth_error y (u - off) = nth_error x j) /\
      user_to_cluster off sz perm y out' = Some x.
  Proof.
    intros x out out' Hx Ho Ho'. destruct (c2u_spec x out Hx Ho) as (y & Hy & HL & H1).
    exists y. split; [exact Hy|]. split; [exact HL|]. split; [exact H1|].
    destruct (u2c_spec y out' HL Ho') as (z & Hz & HLz & H2). rewrite Hz. f_equal.
    apply nth_error_ext; [lia|]. intros j Hj.
    destruct (H1 j ltac:(lia)) as (u & Eu & E1). destruct (H2 j ltac:(lia)) as (u' & Eu' & E2). congruence.
  Qed.
End Renum.

Lemma renum_only_local : forall A n off sz perm (x out : list A),
  Permutation perm (seq 0 n) -> off + sz <= n -> length x = sz -> length out = sz ->
  ~ Permutation (slice off sz perm) (seq off sz) ->
  cluster_to_user off sz perm x out = None /\ user_to_cluster off sz perm x out = None.
Proof.
  intros A n off sz perm x out Hp Hb Hx Ho Hn.
  pose proof (loc_ok_perm n perm off sz Hp Hb) as E. split.
  - destruct (cluster_to_user off sz perm x out) as [r|] eqn:Er; [|reflexivity]. exfalso. apply Hn, E.
    apply scatter_inv in Er. rewrite Ho in Er. exact Er.
  - destruct (user_to_cluster off sz perm x out) as [r|] eqn:Er; [|reflexivity]. exfalso. apply Hn, E.
    apply gather_inv in Er. rewrite Hx in Er. exact Er.
Qed.
