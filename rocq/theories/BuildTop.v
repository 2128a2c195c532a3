(** * Computation of the blocks: the final theorems. *)

From Coq Require Import List Arith ZArith Bool Lia Permutation.
From Verif Require Import ClusterModel ClusterSpec IOModel IOSpec IOProofs BlockModel BlockSpec BlockProofs BlockFinal Algebra BlasModel HMatModel DistModel BuildModel BuildSpec BuildProofs.
Import ListNotations.

(** ** Pointers *)
Lemma pointers_cons : forall base low i L, pointers base low (i :: L) = (if Bool.eqb (is_low i) low then [base] else []) ++ pointers (S base) low L.
Proof. intros base low i L. unfold pointers. cbn [length seq combine filter snd]. destruct (Bool.eqb (is_low i) low); reflexivity. Qed.
Lemma pointers_In : forall L base low p, In p (pointers base low L) <-> exists k i, nth_error L k = Some i /\ p = base + k /\ is_low i = low.
Proof.
  induction L as [|i L IH]; intros base low p; [cbn; split; [intros []|intros (k & i & E & _); destruct k; discriminate]|].
  rewrite pointers_cons, in_app_iff, IH. split.
  - intros [H|(k & j & E & -> & Hl)].
    + destruct (Bool.eqb (is_low i) low) eqn:E; [|destruct H]. destruct H as [<-|[]]. exists 0, i. split; [reflexivity|]. split; [lia|]. apply Bool.eqb_prop. exact E.
    + exists (S k), j. split; [exact E|]. split; [lia|exact Hl].
  - intros ([|k] & j & E & -> & Hl); cbn [nth_error] in E.
    + injection E as <-. left. rewrite Hl, Bool.eqb_reflx. left. lia.
    + right. exists k, j. split; [exact E|]. split; [lia|exact Hl].
Qed.
Lemma pointers_perm : forall L base, Permutation (pointers base true L ++ pointers base false L) (seq base (length L)).
Proof.
  induction L as [|i L IH]; intros base; [constructor|]. rewrite !pointers_cons. cbn [length seq]. destruct (is_low i); cbn [Bool.eqb app].
  - apply perm_skip. apply IH.
  - rewrite <- Permutation_middle. apply perm_skip. apply IH.
Qed.
Lemma pointers_nodup : forall L base, NoDup (pointers base true L ++ pointers base false L).
Proof. intros L base. apply (Permutation_NoDup (Permutation_sym (pointers_perm L base))). apply seq_NoDup. Qed.

Section Top.
  Variable K : Coef.
  Notation C := (car K).
  Variable gen : nat -> nat -> C.
  Variable compress : ctree -> ctree -> lrm K.
  Notation computed := (computed K gen compress).
  Notation block_data := (block_data K gen compress).
  Notation false_positive := (false_positive K gen compress).

  Definition start (h : heap K) (L : list binfo) : heap K := h ++ map (fun i => Some (new_cell K i)) L.
  Lemma look_start_old : forall h L p, p < length h -> look K (start h L) p = nth p h None.
  Proof. intros h L p Hp. unfold look, start. apply app_nth1. exact Hp. Qed.
  Lemma look_start_new : forall h L k i, nth_error L k = Some i -> look K (start h L) (length h + k) = Some (new_cell K i).
  Proof.
    intros h L k i E. unfold look, start. rewrite app_nth2 by lia. replace (length h + k - length h) with k by lia.
    apply nth_error_nth. rewrite nth_error_map, E. reflexivity.
  Qed.
  Lemma rej_false_positive : forall i, is_low i = true -> rej K compress (new_cell K i) = false_positive i.
  Proof.
    intros i H. unfold is_low in H. unfold BuildSpec.false_positive, HMatModel.block_data. destruct (b_task i) as [[]|]; try discriminate.
    unfold rej, rejected, new_cell. cbn [cl_t cl_s]. destruct ((mr (lU (compress (b_t i) (b_s i))) =? c_size (b_t i)) && (mc (lV (compress (b_t i) (b_s i))) =? c_size (b_s i))); reflexivity.
  Qed.
  Lemma low_final_holds : forall i, is_low i = true -> exists c, low_final K gen compress (new_cell K i) = c /\ cl_t K c = b_t i /\ cl_s K c = b_s i /\ holds K c (block_data i).
  Proof.
    intros i H. unfold is_low in H. eexists. split; [reflexivity|]. unfold low_final, rej, rejected, HMatModel.block_data, new_cell, set_dense, set_low.
    destruct (b_task i) as [[]|]; try discriminate. cbn [cl_t cl_s cl_dense cl_low cl_kind].
    destruct ((mr (lU (compress (b_t i) (b_s i))) =? c_size (b_t i)) && (mc (lV (compress (b_t i) (b_s i))) =? c_size (b_s i))); cbn; auto.
  Qed.
  Lemma dense_holds : forall i, b_task i = Some TDense -> exists c, set_dense K gen (new_cell K i) = c /\ cl_t K c = b_t i /\ cl_s K c = b_s i /\ holds K c (block_data i).
  Proof. intros i H. eexists. split; [reflexivity|]. unfold HMatModel.block_data. rewrite H. cbn. auto. Qed.
  Lemma fp_count : forall L h h0, (forall p, look K h0 p = look K (start h L) p) ->
    cnt (rej_at K compress (mkMem K h0 0)) (pointers (length h) true L) = length (filter false_positive L).
  Proof.
    intros L h h0 H0.
    assert (G : forall L' base f, (forall k i, nth_error L' k = Some i -> is_low i = true -> f (base + k) = false_positive i) ->
      cnt f (pointers base true L') = length (filter false_positive L')).
    { induction L' as [|i L' IH]; intros base f Hf; [reflexivity|]. rewrite pointers_cons, cnt_app. cbn [filter].
      rewrite (IH (S base) f); [|intros k j E Hl; replace (S base + k) with (base + S k) by lia; apply Hf; assumption].
      destruct (is_low i) eqn:El; cbn [Bool.eqb cnt].
      - pose proof (Hf 0 i eq_refl El) as Q. rewrite Nat.add_0_r in Q. rewrite Q. destruct (false_positive i); cbn [length]; lia.
      - assert (false_positive i = false); [|rewrite H; lia]. unfold is_low in El. unfold BuildSpec.false_positive. destruct (b_task i) as [[]|]; try discriminate; reflexivity. }
    apply G. intros k i E Hl. unfold rej_at. cbn [m_heap]. rewrite H0, (look_start_new h L k i E). apply rej_false_positive. exact Hl.
  Qed.

  Definition all_tasks (L : list binfo) : Prop := forall i, In i L -> b_task i <> None.

  (** ** With the generator *)
  Lemma blocks_result : forall L h fp custom shares sched, all_tasks L ->
    distributes shares (pointers (length h) true L) (pointers (length h) false L) ->
    exists ts m, run K gen compress sched (map (fun s => mkThread (program custom s) (mkLocal false 0)) shares, mkMem K (start h L) fp) = Some (ts, m) /\
      length ts = length shares /\ length (m_heap K m) = length h + length L /\
      (forall p, p < length h -> nth p (m_heap K m) None = nth p h None) /\
      (finished ts = true -> m_fp K m = fp + length (filter false_positive L) /\
        (forall k i, nth_error L k = Some i -> is_low i = true -> exists c, nth (length h + k) (m_heap K m) None = Some c /\ cl_t K c = b_t i /\ cl_s K c = b_s i /\ holds K c (block_data i)) /\
        (forall k i, nth_error L k = Some i -> is_low i = false -> if custom then nth (length h + k) (m_heap K m) None = Some (new_cell K i) else
           exists c, nth (length h + k) (m_heap K m) None = Some c /\ cl_t K c = b_t i /\ cl_s K c = b_s i /\ holds K c (block_data i))).
  Proof.
    intros L h fp custom shares sched HT [P1 P2].
    assert (Pb : Permutation (concat (map fst shares) ++ concat (map snd shares)) (pointers (length h) true L ++ pointers (length h) false L)) by (apply Permutation_app; assumption).
    assert (Hlen : length (start h L) = length h + length L) by (unfold start; rewrite app_length, map_length; reflexivity).
    destruct (all_threads K gen compress custom shares sched (mkMem K (start h L) fp)) as (ts & m & E & E1 & E2 & E3 & E4).
    { apply (Permutation_NoDup (Permutation_sym Pb)). apply pointers_nodup. }
    { intros p Hp. cbn [m_heap]. apply (Permutation_in _ Pb) in Hp. apply (Permutation_in _ (pointers_perm L (length h))) in Hp. apply in_seq in Hp.
      destruct (nth_error L (p - length h)) as [i|] eqn:Ei; [|apply nth_error_None in Ei; lia].
      replace p with (length h + (p - length h)) by lia. rewrite (look_start_new _ _ _ _ Ei). discriminate. }
    cbn [m_heap m_fp] in *. exists ts, m. split; [exact E|]. split; [exact E1|]. split; [rewrite E2; exact Hlen|]. split.
    - intros p Hp. change (nth p (m_heap K m) None) with (look K (m_heap K m) p). rewrite E3.
      + apply look_start_old. exact Hp.
      + intros Hq. apply (Permutation_in _ P1) in Hq. apply pointers_In in Hq. destruct Hq as (k & i & _ & Hk & _). lia.
      + intros _ Hq. apply (Permutation_in _ P2) in Hq. apply pointers_In in Hq. destruct Hq as (k & i & _ & Hk & _). lia.
    - intros Hf. destruct (E4 Hf) as (F1 & F2 & F3). split; [|split].
      + rewrite F1. f_equal. rewrite (cnt_perm _ _ _ P1). rewrite <- (fp_count L h (start h L)) by reflexivity.
        apply cnt_ext. intros p _. reflexivity.
      + intros k i Ei Hl. change (nth (length h + k) (m_heap K m) None) with (look K (m_heap K m) (length h + k)). rewrite F2.
        * rewrite (look_start_new _ _ _ _ Ei). cbn [option_map]. destruct (low_final_holds i Hl) as (c & Ec & Hc). exists c. split; [rewrite Ec; reflexivity|exact Hc].
        * apply (Permutation_in _ (Permutation_sym P1)). apply pointers_In. exists k, i. auto.
      + intros k i Ei Hl. change (nth (length h + k) (m_heap K m) None) with (look K (m_heap K m) (length h + k)). destruct custom.
        * rewrite E3; [apply look_start_new; exact Ei| |discriminate]. intros Hq. apply (Permutation_in _ P1) in Hq. apply pointers_In in Hq.
          destruct Hq as (k' & i' & Ei' & Hk & Hl'). assert (k' = k) by lia. subst k'. rewrite Ei in Ei'. injection Ei' as <-. congruence.
        * rewrite (F3 eq_refl); [|apply (Permutation_in _ (Permutation_sym P2)); apply pointers_In; exists k, i; auto].
          rewrite (look_start_new _ _ _ _ Ei). cbn [option_map].
          destruct (dense_holds i) as (c & Ec & Hc); [|exists c; split; [rewrite Ec; reflexivity|exact Hc]].
          pose proof (HT i (nth_error_In _ _ Ei)) as Q. unfold is_low in Hl. destruct (b_task i) as [[]|]; [discriminate|reflexivity|contradiction].
  Qed.

  Lemma task_list_tasks : forall b, all_tasks (task_list b).
  Proof. intros b i Hi. apply filter_In in Hi. destruct Hi as [_ H]. destruct (b_task i); [discriminate|discriminate]. Qed.

  Theorem build_ok : forall split sched b h u' h', (forall adm dns, distributes (split adm dns) adm dns) ->
    build_blocks K gen compress split sched b fresh h = Some (u', h') ->
    computed h' (length h) (task_list b) /\ length h' = length h + length (task_list b) /\ (forall p, p < length h -> nth p h' None = nth p h None) /\
    bu_fp u' = length (filter false_positive (task_list b)).
  Proof.
    intros split sched b h u' h' Hs H. unfold build_blocks in H. cbn [fresh bu_adm bu_dense bu_fp app] in H.
    set (L := task_list b) in *. destruct (blocks_result L h 0 false (split (pointers (length h) true L) (pointers (length h) false L)) sched (task_list_tasks b) (Hs _ _)) as (ts & m & E & _ & E2 & E3 & E4).
    unfold compute_blocks in H. fold (start h L) in H. rewrite E in H. cbn [fst snd] in H. destruct (finished ts); [|discriminate]. injection H as <- <-. cbn [bu_fp].
    destruct (E4 eq_refl) as (F1 & F2 & F3). split; [|split; [exact E2|split; [exact E3|exact F1]]].
    intros k i Ei. destruct (is_low i) eqn:El; [exact (F2 k i Ei El)|exact (F3 k i Ei El)].
  Qed.

  Lemma share_bound : forall shares adm dns i s, distributes shares adm dns -> nth_error shares i = Some s ->
    length (fst s) <= length adm /\ length (snd s) <= length dns.
  Proof.
    assert (G : forall (g : list nat * list nat -> list nat) shares i s, nth_error shares i = Some s -> length (g s) <= length (concat (map g shares))).
    { intros g. induction shares as [|x shares IH]; intros i s E; [destruct i; discriminate|]. cbn [map concat]. rewrite app_length.
      destruct i as [|i]; cbn [nth_error] in E; [injection E as <-; lia|pose proof (IH i s E); lia]. }
    intros shares adm dns i s [P1 P2] E. rewrite <- (Permutation_length P1), <- (Permutation_length P2). split; apply (G _ _ i s E).
  Qed.
  Theorem build_completes : forall split sched b h, (forall adm dns, distributes (split adm dns) adm dns) ->
    (forall i, i < length (split (pointers (length h) true (task_list b)) (pointers (length h) false (task_list b))) -> 3 * length (task_list b) + 1 <= count_occ Nat.eq_dec sched i) ->
    build_blocks K gen compress split sched b fresh h <> None.
  Proof.
    intros split sched b h Hs Hc. unfold build_blocks. cbn [fresh bu_adm bu_dense bu_fp app]. set (L := task_list b) in *.
    set (shares := split (pointers (length h) true L) (pointers (length h) false L)) in *.
    destruct (blocks_result L h 0 false shares sched (task_list_tasks b) (Hs _ _)) as (ts & m & E & E1 & _).
    unfold compute_blocks. fold (start h L). rewrite E. cbn [fst snd].
    assert (Hf : finished ts = true).
    { unfold finished. apply forallb_forall. intros t Ht. destruct (In_nth_error _ _ Ht) as (i & Ei).
      destruct (run_left _ _ _ _ _ _ _ _ E) as [_ Q]. destruct (Q i t Ei) as (t0 & E0 & Hl).
      assert (Hi : i < length shares) by (rewrite <- E1; apply nth_error_Some; congruence).
      specialize (Hc i Hi). rewrite nth_error_map in E0. destruct (nth_error shares i) as [s|] eqn:Es; [|discriminate]. injection E0 as <-. cbn [th_prog] in Hl.
      rewrite program_length in Hl. destruct (share_bound _ _ _ i s (Hs (pointers (length h) true L) (pointers (length h) false L)) Es) as [B1 B2].
      pose proof (Permutation_length (pointers_perm L (length h))) as B3. rewrite app_length, seq_length in B3.
      destruct (th_prog t); [reflexivity|]. cbn [length] in Hl. lia. }
    rewrite Hf. discriminate.
  Qed.
  Theorem build_continues : forall split sched b h, (forall adm dns, distributes (split adm dns) adm dns) ->
    exists more, build_blocks K gen compress split (sched ++ more) b fresh h <> None.
  Proof.
    intros split sched b h Hs. set (n := length (split (pointers (length h) true (task_list b)) (pointers (length h) false (task_list b)))).
    exists (concat (repeat (seq 0 n) (3 * length (task_list b) + 1))). apply build_completes; [exact Hs|]. fold n. intros i Hi. rewrite count_occ_app.
    assert (G : forall m, m <= count_occ Nat.eq_dec (concat (repeat (seq 0 n) m)) i).
    { induction m as [|m IH]; [lia|]. cbn [repeat concat]. rewrite count_occ_app.
      assert (count_occ Nat.eq_dec (seq 0 n) i > 0) by (apply count_occ_In, in_seq; lia). lia. }
    specialize (G (3 * length (task_list b) + 1)). lia.
  Qed.

  (** ** With a generator of dense blocks *)
  Definition size_of (i : binfo) : nat * nat * nat * nat := (c_size (b_t i), c_size (b_s i), c_off (b_t i), c_off (b_s i)).
  Definition filled (c : cell K) (d : list C) : cell K := mkCell K (cl_t K c) (cl_s K c) KDense (cl_low K c) (Some (mkMat (c_size (cl_t K c)) (c_size (cl_s K c)) d)).
  Lemma fill_all_ok : forall ps datas h, NoDup ps ->
    Forall2 (fun p d => exists c, look K h p = Some c /\ length d = c_size (cl_t K c) * c_size (cl_s K c)) ps datas ->
    exists h', fill_all K h ps datas = Some h' /\ length h' = length h /\ (forall q, ~ In q ps -> look K h' q = look K h q) /\
      forall n p d c, nth_error ps n = Some p -> nth_error datas n = Some d -> look K h p = Some c -> look K h' p = Some (filled c d).
  Proof.
    induction ps as [|p ps IH]; intros datas h Hn Hf; inversion Hf as [|? d ? ds (c & Hc & Hd) Hf']; subst.
    - exists h. cbn. split; [reflexivity|]. split; [reflexivity|]. split; [reflexivity|]. intros [|n]; discriminate.
    - inversion Hn as [|? ? Hp Hn']; subst. cbn [fill_all]. unfold fill_dense. rewrite Hc. rewrite Hd, Nat.eqb_refl. cbn [fst snd].
      pose proof (look_lt _ _ _ _ Hc) as Hlt. fold (filled c d).
      assert (Hs : forall q, look K (store K h p (filled c d)) q = if q =? p then Some (filled c d) else look K h q) by (intros q; apply look_store; exact Hlt).
      destruct (IH ds (store K h p (filled c d)) Hn') as (h' & E & E1 & E2 & E3).
      { clear - Hf' Hs Hp. induction Hf' as [|p' d' ps ds (c' & Hc' & Hd') Hf' IH]; constructor.
        - exists c'. split; [|exact Hd']. rewrite Hs. destruct (Nat.eqb_spec p' p) as [->|]; [exfalso; apply Hp; left; reflexivity|exact Hc'].
        - apply IH. intros Hq. apply Hp. right. exact Hq. }
      exists h'. split; [exact E|]. split; [rewrite E1; apply store_length; exact Hlt|]. split.
      + intros q Hq. rewrite E2 by (intros Hq'; apply Hq; right; exact Hq'). rewrite Hs. destruct (Nat.eqb_spec q p) as [->|]; [exfalso; apply Hq; left; reflexivity|reflexivity].
      + intros [|n] p' d' c' Ep Ed Ec; cbn [nth_error] in Ep, Ed.
        * injection Ep as <-. injection Ed as <-. rewrite Hc in Ec. injection Ec as <-. rewrite E2 by exact Hp. rewrite Hs, Nat.eqb_refl. reflexivity.
        * apply (E3 n p' d' c' Ep Ed). rewrite Hs. destruct (Nat.eqb_spec p' p) as [->|]; [exfalso; apply Hp; exact (nth_error_In _ _ Ep)|exact Ec].
  Qed.
  Definition dense_tasks (L : list binfo) : list binfo := filter (fun i => negb (is_low i)) L.
  Lemma pointers_dense : forall L base n i, nth_error (dense_tasks L) n = Some i -> exists k, nth_error L k = Some i /\ nth_error (pointers base false L) n = Some (base + k).
  Proof.
    induction L as [|j L IH]; intros base n i E; [destruct n; discriminate|]. rewrite pointers_cons. unfold dense_tasks in E. cbn [filter] in E. fold (dense_tasks L) in E.
    destruct (is_low j); cbn [negb Bool.eqb app] in *.
    - destruct (IH (S base) n i E) as (k & E1 & E2). exists (S k). split; [exact E1|]. rewrite E2. f_equal. lia.
    - destruct n as [|n]; cbn [nth_error] in *.
      + injection E as <-. exists 0. split; [reflexivity|]. f_equal. lia.
      + destruct (IH (S base) n i E) as (k & E1 & E2). exists (S k). split; [exact E1|]. rewrite E2. f_equal. lia.
  Qed.
  Lemma pointers_dense_length : forall L base, length (pointers base false L) = length (dense_tasks L).
  Proof.
    induction L as [|j L IH]; intros base; [reflexivity|]. rewrite pointers_cons, app_length, IH. unfold dense_tasks. cbn [filter].
    destruct (is_low j); reflexivity.
  Qed.
  Lemma nodup_eq : forall (l : list nat) i j x, NoDup l -> nth_error l i = Some x -> nth_error l j = Some x -> i = j.
  Proof. intros l i j x Hn Hi Hj. apply (proj1 (NoDup_nth_error l) Hn i j); [apply nth_error_Some; congruence|congruence]. Qed.
  Lemma all_some_map : forall {A X} (f : A -> option X) (g : A -> X) l, (forall x, In x l -> f x = Some (g x)) -> all_some (map f l) = Some (map g l).
  Proof.
    intros A X f g. induction l as [|x l IH]; intros H; [reflexivity|]. cbn [map all_some]. rewrite (H x) by (left; reflexivity).
    rewrite IH by (intros; apply H; right; assumption). reflexivity.
  Qed.

  Theorem custom_ok : forall (g : list (nat * nat * nat * nat) -> list (list C)) shares sched L h fp m, all_tasks L ->
    distributes shares (pointers (length h) true L) (pointers (length h) false L) ->
    Forall2 (fun i d => length d = c_size (b_t i) * c_size (b_s i)) (dense_tasks L) (g (map size_of (dense_tasks L))) ->
    compute_blocks K gen compress (Some g) shares sched (pointers (length h) false L) (mkMem K (start h L) fp) = Some m ->
    (forall p, p < length h -> nth p (m_heap K m) None = nth p h None) /\
    m_fp K m = fp + length (filter false_positive L) /\
    (forall k i, nth_error L k = Some i -> is_low i = true -> exists c, nth (length h + k) (m_heap K m) None = Some c /\ cl_t K c = b_t i /\ cl_s K c = b_s i /\ holds K c (block_data i)) /\
    (forall n i d, nth_error (dense_tasks L) n = Some i -> nth_error (g (map size_of (dense_tasks L))) n = Some d ->
       exists k, nth_error L k = Some i /\ nth_error (pointers (length h) false L) n = Some (length h + k) /\
         nth (length h + k) (m_heap K m) None = Some (mkCell K (b_t i) (b_s i) KDense None (Some (mkMat (c_size (b_t i)) (c_size (b_s i)) d)))).
  Proof.
    intros g shares sched L h fp m HT Hd Hg H. unfold compute_blocks in H. cbn iota beta in H.
    destruct (blocks_result L h fp true shares sched HT Hd) as (ts & m1 & E & _ & E2 & E3 & E4).
    rewrite E in H. cbn [fst snd] in H. destruct (finished ts); [|discriminate]. destruct (E4 eq_refl) as (F1 & F2 & F3). clear E4.
    set (ps := pointers (length h) false L) in *.
    assert (Hps : forall n p, nth_error ps n = Some p -> exists k i, nth_error L k = Some i /\ p = length h + k /\ nth_error (dense_tasks L) n = Some i /\ is_low i = false).
    { intros n p Ep. assert (Hn : n < length (dense_tasks L)) by (rewrite <- (pointers_dense_length L (length h)); apply nth_error_Some; fold ps; congruence).
      destruct (nth_error (dense_tasks L) n) as [i|] eqn:Ei; [|apply nth_error_None in Ei; lia].
      destruct (pointers_dense L (length h) n i Ei) as (k & Ek & Ek'). fold ps in Ek'. exists k, i. split; [exact Ek|]. split; [congruence|]. split; [reflexivity|].
      apply nth_error_In in Ei. apply filter_In in Ei. destruct Ei as [_ Ei]. apply negb_true_iff. exact Ei. }
    assert (Hnd : NoDup ps) by (apply (nodup_app _ _ (pointers_nodup L (length h)))).
    assert (Hreq : dense_blocks K g (m_heap K m1) ps = fill_all K (m_heap K m1) ps (g (map size_of (dense_tasks L))) \/ (ps = [])).
    { destruct ps as [|p0 ps0] eqn:Eps; [right; reflexivity|left]. unfold dense_blocks. rewrite <- Eps in *.
      assert (A : all_some (map (block_request K (m_heap K m1)) ps) = Some (map size_of (dense_tasks L))).
      { assert (G : forall l1 l2, length l1 = length l2 -> (forall n p i, nth_error l1 n = Some p -> nth_error l2 n = Some i -> block_request K (m_heap K m1) p = Some (size_of i)) ->
          all_some (map (block_request K (m_heap K m1)) l1) = Some (map size_of l2)).
        { induction l1 as [|p l1 IH]; intros [|i l2] Hl Hr; cbn in Hl; try discriminate; [reflexivity|]. cbn [map all_some]. rewrite (Hr 0 p i) by reflexivity.
          rewrite (IH l2) by (try lia; intros n p' i' E1' E2'; apply (Hr (S n) p' i'); assumption). reflexivity. }
        apply G; [rewrite Eps, <- Eps; unfold ps; apply pointers_dense_length|]. intros n p i Ep Ei. destruct (Hps n p Ep) as (k & i' & Ek & -> & Ei' & Hl).
        rewrite Ei in Ei'. injection Ei' as <-. unfold block_request. pose proof (F3 k i Ek Hl) as Q. cbn iota in Q.
        unfold look. rewrite Q. reflexivity. }
      rewrite A. reflexivity. }
    destruct (fill_all_ok ps (g (map size_of (dense_tasks L))) (m_heap K m1) Hnd) as (h' & Eh & Eh1 & Eh2 & Eh3).
    { assert (G : forall l1 l2 (l3 : list (list C)), length l1 = length l2 -> Forall2 (fun i d => length d = c_size (b_t i) * c_size (b_s i)) l2 l3 ->
        (forall n p i, nth_error l1 n = Some p -> nth_error l2 n = Some i -> look K (m_heap K m1) p = Some (new_cell K i)) ->
        Forall2 (fun p d => exists c, look K (m_heap K m1) p = Some c /\ length d = c_size (cl_t K c) * c_size (cl_s K c)) l1 l3).
      { induction l1 as [|p l1 IH]; intros [|i l2] l3 Hl Hf Hr; cbn in Hl; try discriminate; inversion Hf; subst; constructor.
        - exists (new_cell K i). split; [apply (Hr 0 p i); reflexivity|assumption].
        - apply (IH l2); [lia|assumption|]. intros n p' i' E1' E2'. apply (Hr (S n) p' i'); assumption. }
      apply (G ps (dense_tasks L)); [unfold ps; apply pointers_dense_length|exact Hg|].
      intros n p i Ep Ei. destruct (Hps n p Ep) as (k & i' & Ek & -> & Ei' & Hl). rewrite Ei in Ei'. injection Ei' as <-. exact (F3 k i Ek Hl). }
    assert (Hm : m = mkMem K h' (m_fp K m1)).
    { destruct Hreq as [Hreq|Hreq].
      - rewrite Hreq, Eh in H. injection H as <-. reflexivity.
      - rewrite Hreq in *. cbn in H. injection H as <-. assert (dense_tasks L = []).
        { pose proof (pointers_dense_length L (length h)) as Q. fold ps in Q. rewrite Hreq in Q. destruct (dense_tasks L); [reflexivity|discriminate]. }
        rewrite H in Hg. cbn [map] in Hg. rewrite H in Eh. cbn [map] in Eh. destruct (g []) as [|? ?]; [|inversion Hg]. cbn in Eh. injection Eh as <-. reflexivity. }
    subst m. cbn [m_heap m_fp].
    assert (Hout : forall p, (forall k i, nth_error L k = Some i -> p = length h + k -> is_low i = true) -> nth p h' None = nth p (m_heap K m1) None).
    { intros p Hp. apply (Eh2 p). intros Hq. apply pointers_In in Hq. destruct Hq as (k & i & Ek & -> & Hl). rewrite (Hp k i Ek eq_refl) in Hl. discriminate. }
    split; [|split; [exact F1|split]].
    - intros p Hp. rewrite Hout; [apply E3; exact Hp|]. intros k i _ ->. lia.
    - intros k i Ek Hl. rewrite Hout; [apply F2; assumption|]. intros k' i' Ek' Hk. assert (k' = k) by lia. subst k'. rewrite Ek in Ek'. injection Ek' as <-. exact Hl.
    - intros n i d Ei Ed. destruct (pointers_dense L (length h) n i Ei) as (k & Ek & Ep). exists k. split; [exact Ek|]. split; [exact Ep|].
      assert (Hl : is_low i = false) by (apply nth_error_In in Ei; apply filter_In in Ei; destruct Ei as [_ Ei]; apply negb_true_iff; exact Ei).
      exact (Eh3 n _ d (new_cell K i) Ep Ed (F3 k i Ek Hl)).
  Qed.
End Top.

(** ** The reset of the root loses no block *)
Section Reset.
  Variable B : bbuild.
  Variables T S : ctree.
  Hypothesis HT : partitioned T (bb_tparts B).
  Hypothesis HS : partitioned S (bb_sparts B).
  Notation ok b := (forall u, In u (preorder b) -> node_facts B T S u).
  Lemma task_list_cons : forall i cs, task_list (RNode i cs) = (match b_task i with Some _ => [i] | None => [] end) ++ concat (map task_list cs).
  Proof.
    intros i cs. unfold task_list. rewrite preorder_eq. cbn [map filter rt_val rt_children].
    assert (E : filter (fun j => match b_task j with Some _ => true | None => false end) (map rt_val (concat (map preorder cs))) = concat (map (fun b => filter (fun j => match b_task j with Some _ => true | None => false end) (map rt_val (preorder b))) cs)).
    { induction cs as [|c cs IH]; [reflexivity|]. cbn [map concat]. rewrite map_app, filter_app, IH. reflexivity. }
    rewrite E. destruct (b_task i); reflexivity.
  Qed.
  Lemma concat_perm : forall {X} (l l' : list (list X)), Permutation l l' -> Permutation (concat l) (concat l').
  Proof.
    intros X l l' P. induction P; cbn [concat]; [constructor|apply Permutation_app_head; assumption| |eapply Permutation_trans; eassumption].
    rewrite !app_assoc. apply Permutation_app_tail. apply Permutation_app_comm.
  Qed.
  Lemma filter_perm : forall {X} (f : X -> bool) l, Permutation (filter (fun x => negb (f x)) l ++ filter f l) l.
  Proof.
    intros X f. induction l as [|x l IH]; [constructor|]. cbn [filter]. destruct (f x); cbn [negb app].
    - rewrite <- Permutation_middle. apply perm_skip. exact IH.
    - apply perm_skip. exact IH.
  Qed.
  Lemma reset_run_tasks : forall p, bb_tpart B = Some p -> forall fuel stack acc r, reset_run fuel p stack acc = Some r ->
    (forall b, In b stack -> ok b /\ b_task (rt_val b) = None) ->
    Permutation (concat (map task_list stack) ++ concat (map task_list acc)) (concat (map task_list r)).
  Proof.
    intros p Ep. induction fuel as [|f IH]; intros stack acc r H Hst.
    - destruct stack; [|discriminate]. cbn in H. injection H as <-. apply Permutation_refl.
    - destruct stack as [|[i cs] st]; [cbn in H; injection H as <-; apply Permutation_refl|]. cbn [reset_run rt_children] in H.
      set (here := fun c : btree => (c_rank (b_t (rt_val c)) =? Z.of_nat p)%Z) in *.
      destruct (Hst _ (or_introl eq_refl)) as [Hok Hnone]. cbn [rt_val] in Hnone.
      specialize (IH _ _ _ H). rewrite <- IH; clear IH H.
      + rewrite !map_app, !concat_app. cbn [map concat]. rewrite task_list_cons, Hnone. cbn [app].
        set (X := concat (map task_list st)). set (Y := concat (map task_list acc)).
        set (a := concat (map task_list (rev (filter (fun c => negb (here c)) cs)))). set (b := concat (map task_list (filter here cs))).
        assert (Q : Permutation (concat (map task_list cs)) (a ++ b)).
        { unfold a, b. rewrite <- concat_app, <- map_app. apply concat_perm, Permutation_map.
          rewrite <- (filter_perm here cs) at 1. apply Permutation_app_tail. apply Permutation_rev. }
        rewrite Q. rewrite <- !app_assoc. apply Permutation_app_head.
        rewrite (Permutation_app_comm b). rewrite <- app_assoc. reflexivity.
      + intros c Hc. apply in_app_or in Hc. destruct Hc as [Hc|Hc]; [|apply Hst; right; exact Hc].
        apply in_rev in Hc. apply filter_In in Hc. destruct Hc as [Hc Hh].
        assert (Hokc : ok c).
        { intros u Hu. apply Hok. rewrite preorder_eq. right. apply in_concat. exists (preorder c). split; [apply in_map; exact Hc|exact Hu]. }
        split; [exact Hokc|]. assert (Hself : In c (preorder c)) by (destruct c; rewrite preorder_eq; left; reflexivity).
        destruct (Hokc c Hself) as (_ & _ & _ & _ & Q). destruct (b_task (rt_val c)); [|reflexivity]. exfalso.
        destruct Q as (_ & _ & Q & _). unfold in_part in Q. rewrite Ep in Q. unfold here in Hh. rewrite Z.eqb_sym, Q in Hh. discriminate.
  Qed.
  Lemma root_tasks : part_valid B T -> forall fuel b root, build_block_tree B fuel T S = Some b -> build_root B fuel T S = Some root ->
    Permutation (task_list b) (task_list root).
  Proof.
    intros HV fuel b root Hb Hr. unfold build_root in Hr. rewrite Hb in Hr. destruct b as [i cs].
    destruct (build_facts B T S HT HS fuel T S _ (tN_root T) (sN_root S) (root_t_ok B T HT HV) Hb) as (E1 & E2 & F). cbn [rt_val] in E1, E2.
    destruct (reset_root B fuel (RNode i cs)) as [[i' cs']|] eqn:Er; [|discriminate]. injection Hr as <-.
    assert (Same : Some (RNode i cs) = Some (RNode i' cs') -> Permutation (task_list (RNode i cs))
      (task_list (RNode (mkBinfo (b_t i') (b_s i') (b_task i') (has_sym B (b_t i') (b_s i'))) cs'))).
    { intros Q. injection Q as <- <-. assert (Hself : node_facts B T S (RNode i cs)) by (apply F; rewrite preorder_eq; left; reflexivity).
      destruct Hself as (_ & _ & _ & Q & _). cbn [rt_val] in Q. rewrite <- Q. destruct i. apply Permutation_refl. }
    unfold reset_root in Er. cbn [rt_val] in Er. destruct (in_part B (b_t i)) eqn:Ip; [exact (Same Er)|].
    destruct (bb_tpart B) as [p|] eqn:Ep; [|exact (Same Er)].
    destruct (reset_run fuel p [RNode i cs] []) as [cs1|] eqn:Ers; [|discriminate]. destruct (nth_error (bb_tparts B) p) as [u|]; [|discriminate].
    injection Er as <- <-. cbn [b_t b_s b_task].
    assert (Hnone : b_task i = None).
    { destruct (F (RNode i cs)) as (_ & _ & _ & _ & Q); [rewrite preorder_eq; left; reflexivity|]. cbn [rt_val] in Q. destruct (b_task i); [|reflexivity].
      destruct Q as (_ & _ & Q & _). congruence. }
    pose proof (reset_run_tasks p Ep fuel [RNode i cs] [] cs1 Ers) as Q. cbn [map concat] in Q. rewrite !app_nil_r in Q.
    rewrite Q; [|intros b [<-|[]]; split; [exact F|exact Hnone]].
    rewrite task_list_cons. cbn [b_task]. rewrite Hnone. apply Permutation_refl.
  Qed.
End Reset.

Lemma preorder_hfill : forall K sy B gen compress b, map rt_val (preorder (hfill K sy B gen compress b)) = map (fun n => rt_val (hfill K sy B gen compress n)) (preorder b).
Proof.
  intros K sy B gen compress b. induction b as [i cs IH] using rtree_ind'. rewrite !preorder_eq. cbn [hfill rt_val rt_children map]. f_equal.
  induction cs as [|c cs IHc]; [reflexivity|]. cbn [map concat]. rewrite !map_app. rewrite IH by (left; reflexivity). f_equal. apply IHc. intros x Hx. apply IH. right. exact Hx.
Qed.
Lemma hfill_blocks : forall K sy B gen compress b,
  map (fun i => (h_t i, h_s i, h_data i)) (filter has_data (map rt_val (preorder (hfill K sy B gen compress b)))) =
  map (fun i => (b_t i, b_s i, block_data K gen compress i)) (task_list b).
Proof.
  intros K sy B gen compress b. rewrite preorder_hfill. unfold task_list. generalize (preorder b). intros l. induction l as [|[i cs] l IH]; [reflexivity|].
  cbn [map filter rt_val hfill]. unfold has_data at 1. cbn [h_data]. unfold block_data at 1. destruct (b_task i) as [[]|] eqn:Et.
  - destruct ((mr (lU (compress (b_t i) (b_s i))) =? c_size (b_t i)) && (mc (lV (compress (b_t i) (b_s i))) =? c_size (b_s i))); cbn [map h_t h_s h_data]; rewrite IH; reflexivity.
  - cbn [map h_t h_s h_data]. rewrite IH. reflexivity.
  - exact IH.
Qed.
Theorem built_blocks : forall K sy B gen compress T S fuel b H, partitioned T (bb_tparts B) -> partitioned S (bb_sparts B) -> part_valid B T ->
  build_block_tree B fuel T S = Some b -> hbuild K sy B gen compress fuel T S = Some H ->
  Permutation (map (fun i => (b_t i, b_s i, block_data K gen compress i)) (task_list b))
    (map (fun i => (h_t i, h_s i, h_data i)) (filter has_data (map rt_val (preorder H)))).
Proof.
  intros K sy B gen compress T S fuel b H HT HS HV Hb Hh. unfold hbuild in Hh. destruct (build_root B fuel T S) as [root|] eqn:Er; [|discriminate].
  cbn [option_map] in Hh. injection Hh as <-. rewrite hfill_blocks. apply Permutation_map. exact (root_tasks B T S HT HS HV fuel b root Hb Er).
Qed.
