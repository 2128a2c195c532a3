(** * Exchanges between neighbours and products with overlap. *)

From Coq Require Import List Arith Bool Lia Ring Permutation.
From Verif Require Import ClusterModel ClusterSpec IOModel BlockModel Algebra BlasModel BlasProofs HMatModel HMatProofs HMatTop DistModel DistSpec DistProofs DistVec DistMat DdmModel DdmSpec.
Import ListNotations.

Section Lists.
  Lemma combine_app : forall A B (l1 l2 : list A) (m1 m2 : list B), length l1 = length m1 -> combine (l1 ++ l2) (m1 ++ m2) = combine l1 m1 ++ combine l2 m2.
  Proof. induction l1 as [|a l1 IH]; intros l2 [|b m1] m2 H; cbn in *; try discriminate; [reflexivity|]. f_equal. apply IH. lia. Qed.
  Lemma combine_flat_map : forall A B X (f : X -> list A) (g : X -> list B) l, (forall x, length (f x) = length (g x)) ->
    combine (flat_map f l) (flat_map g l) = flat_map (fun x => combine (f x) (g x)) l.
  Proof. intros A B X f g l H. induction l as [|x l IH]; [reflexivity|]. cbn [flat_map]. rewrite combine_app by apply H. f_equal. exact IH. Qed.
  Lemma combine_map2 : forall A B X Y (f : A -> X) (g : B -> Y) l m, combine (map f l) (map g m) = map (fun ab => (f (fst ab), g (snd ab))) (combine l m).
  Proof. induction l as [|a l IH]; intros [|b m]; cbn; try reflexivity. f_equal. apply IH. Qed.
  Lemma map_flat_map : forall A B X (g : A -> B) (f : X -> list A) l, map g (flat_map f l) = flat_map (fun x => map g (f x)) l.
  Proof. intros. induction l as [|x l IH]; [reflexivity|]. cbn [flat_map]. rewrite map_app. f_equal. exact IH. Qed.
  Lemma find_key : forall X (l : list (nat * X)) k x, NoDup (map fst l) -> In (k, x) l -> find (fun e => fst e =? k) l = Some (k, x).
  Proof.
    intros X l k x. induction l as [|[k' x'] l IH]; intros Hn Hi; [contradiction|]. cbn [find fst]. cbn [map fst] in Hn. inversion Hn as [|? ? H1 H2]; subst.
    destruct (Nat.eqb_spec k' k) as [->|Hk].
    - destruct Hi as [Hi|Hi]; [congruence|]. exfalso. apply H1. apply (in_map fst) in Hi. exact Hi.
    - destruct Hi as [Hi|Hi]; [congruence|]. apply IH; assumption.
  Qed.
  Lemma all_some_map : forall A (l : list (option A)) m, l = map Some m -> all_some l = Some m.
  Proof. intros A l m ->. induction m as [|a m IH]; [reflexivity|]. cbn. rewrite IH. reflexivity. Qed.
  Lemma combine_fst : forall A B (l : list A) (m : list B), length l = length m -> map fst (combine l m) = l.
  Proof. induction l as [|a l IH]; intros [|b m] H; cbn in *; try discriminate; [reflexivity|]. f_equal. apply IH. lia. Qed.
  Lemma map_eq_pairs : forall A B X (f : A -> X) (g : B -> X) l m, map f l = map g m -> forall ab, In ab (combine l m) -> f (fst ab) = g (snd ab).
  Proof.
    induction l as [|a l IH]; intros [|b m] H ab Hi; cbn in *; try discriminate; try contradiction. injection H as H1 H2.
    destruct Hi as [<-|Hi]; [exact H1|]. exact (IH m H2 ab Hi).
  Qed.
  Lemma positions_length : forall n mu I, length (positions n mu I) = mu * length I.
  Proof.
    intros n mu I. unfold positions. rewrite <- (seq_length mu 0) at 2. induction (seq 0 mu) as [|c l IH]; [reflexivity|].
    cbn [flat_map length]. rewrite app_length, map_length, IH. lia.
  Qed.
  Lemma positions_in : forall n mu I p, In p (positions n mu I) -> exists k c, In k I /\ c < mu /\ p = k + c * n.
  Proof.
    intros n mu I p H. unfold positions in H. apply in_flat_map in H. destruct H as (c & Hc & H). apply in_map_iff in H. destruct H as (k & <- & Hk).
    apply in_seq in Hc. exists k, c. repeat split; [exact Hk|lia].
  Qed.
End Lists.

Section D.
  Variable K : Coef.
  Notation C := (car K).
  Notation buf := (list C).
  Notation "0" := (c0 K).
  Notation "1" := (c1 K).
  Notation "x + y" := (cadd K x y).
  Notation "x * y" := (cmul K x y).
  Add Ring Krng : (c_ring K).

  Lemma lsum_flat_map : forall A B (f : A -> list B) l (g : B -> C), lsum (flat_map f l) g = lsum l (fun a => lsum (f a) g).
  Proof. intros. rewrite flat_map_concat_map, lsum_concat, lsum_map. reflexivity. Qed.
  Lemma lsum_one : forall A (key : A -> nat) l (f : A -> C) a, NoDup (map key l) -> In a l -> (forall b, In b l -> key b <> key a -> f b = 0) -> lsum l f = f a.
  Proof.
    intros A key l f a. induction l as [|b l IH]; intros Hn Hi Hz; [contradiction|]. cbn [lsum]. cbn [map] in Hn. inversion Hn as [|? ? H1 H2]; subst.
    destruct Hi as [->|Hi].
    - rewrite lsum_0; [ring|]. intros b Hb. apply Hz; [right; exact Hb|]. intros E. apply H1. rewrite <- E. apply in_map. exact Hb.
    - rewrite IH; [|exact H2|exact Hi|intros b' Hb'; apply Hz; right; exact Hb']. rewrite (Hz b); [ring|left; reflexivity|].
      intros E. apply H1. rewrite E. apply in_map. exact Hi.
  Qed.

  Lemma fold_add1 : forall l (b : buf), (forall pv, In pv l -> (fst pv < length b)%nat) ->
    exists b', fold_opt K (add1 K) l b = Some b' /\ length b' = length b /\
      forall p, get b' p = get b p + lsum l (fun pv => if (fst pv =? p)%nat then snd pv else 0).
  Proof.
    induction l as [|[q v] l IH]; intros b H.
    - exists b. split; [reflexivity|]. split; [reflexivity|]. intros p. cbn [lsum]. ring.
    - cbn [fold_opt]. unfold add1 at 1. cbn [fst snd]. destruct (set1_ok K q (get b q + v) b) as (b1 & E1 & L1 & V1); [apply (H (q, v)); left; reflexivity|].
      rewrite E1. destruct (IH b1) as (b' & E & L & V).
      { intros pv Hp. rewrite L1. apply H. right. exact Hp. }
      exists b'. split; [exact E|]. split; [lia|]. intros p. rewrite V, V1. cbn [lsum fst snd]. rewrite (Nat.eqb_sym q p).
      destruct (Nat.eqb_spec p q) as [->|Hpq]; ring.
  Qed.

  Variable S : ddm K.
  Notation D := (dd_op S).
  Notation T := (d_t K D).
  Notation P := (world K D).
  Notation dof := (dof K S).
  Notation shared := (shared K S).
  Variable l2g : nat -> nat -> nat.
  Hypothesis HT : partition_ok T P.
  Hypothesis HO : overlapping S l2g.

  Lemma index_owner : forall r o s i r' o' s' i', nth_error (pa_parts T) r = Some (o, s) -> nth_error (pa_parts T) r' = Some (o', s') ->
    (i < s)%nat -> (i' < s')%nat -> user_index (d_perm K D) T (o + i) = user_index (d_perm K D) T (o' + i') -> r = r' /\ i = i'.
  Proof.
    intros r o s i r' o' s' i' E E' Hi Hi' H.
    pose proof (proj2 (tiles_in _ _ _ _ _ _ (po_tiles _ _ HT) E)). pose proof (proj2 (tiles_in _ _ _ _ _ _ (po_tiles _ _ HT) E')).
    assert (Eq : (o + i = o' + i')%nat).
    { unfold user_index in H. destruct (d_perm K D); [|exact H].
      assert (Hn : NoDup (pa_perm T)) by (apply (Permutation_NoDup (Permutation_sym (po_perm _ _ HT))), seq_NoDup).
      apply (proj1 (NoDup_nth _ 0%nat) Hn); [rewrite (perm_len T P HT); lia|rewrite (perm_len T P HT); lia|exact H]. }
    destruct (Nat.eq_dec r r') as [->|Hr]; [split; [reflexivity|]; rewrite E in E'; injection E' as -> ->; lia|].
    exfalso. assert (G : forall a a' b b' c c' k k', (k < k')%nat -> nth_error (pa_parts T) k = Some (a, b) -> nth_error (pa_parts T) k' = Some (a', b') -> (c < b)%nat -> (c' < b')%nat -> (a + c < a' + c')%nat).
    { clear - HT. intros a a' b b' c c' k k' Hk E E' Hc Hc'. destruct HT as [_ _ Ht]. revert Ht k k' Hk E E'.
      generalize (pa_parts T) 0%nat (pa_n T). induction l as [|[o s] l IH]; intros lo hi Ht [|k] [|k'] Hk E E'; cbn in E, E'; try discriminate; try lia.
      - injection E as -> ->. cbn in Ht. destruct Ht as [-> Ht]. pose proof (tiles_in _ _ _ _ _ _ Ht E'). lia.
      - cbn in Ht. destruct Ht as [-> Ht]. apply (IH _ _ Ht k k'); try assumption. lia. }
    destruct (Nat.lt_gt_cases r r') as [Hlg _]. destruct (Hlg Hr) as [Hc|Hc].
    - pose proof (G _ _ _ _ _ _ _ _ Hc E E' Hi Hi'). lia.
    - pose proof (G _ _ _ _ _ _ _ _ Hc E' E Hi' Hi). lia.
  Qed.

  (** The coefficients of the neighbour [fst e] that it shares with [r]. *)
  Definition theirs (r : nat) (e : nat * list nat) : list nat :=
    match find (fun e' => (fst e' =? r)%nat) (shared (fst e)) with Some e' => snd e' | None => [] end.
  Lemma message_ok : forall bs mu r e, (r < P)%nat -> local_sizes S mu bs -> In e (shared r) ->
    map (l2g r) (snd e) = map (l2g (fst e)) (theirs r e) /\ (forall k, In k (theirs r e) -> (k < dof (fst e))%nat) /\
      message K S bs mu (fst e) r = Some (map (get (at_rank K bs (fst e))) (positions (dof (fst e)) mu (theirs r e))).
  Proof.
    intros bs mu r [t I] Hr Hs Hi. destruct (ov_match K S l2g HO r t I Hr Hi) as (Ht & Hne & Hn & Hk & J & HJ & Em).
    destruct (ov_match K S l2g HO t r J Ht HJ) as (_ & _ & _ & HkJ & _).
    unfold theirs, message. cbn [fst snd]. rewrite (find_key _ _ _ _ (ov_distinct K S l2g HO t Ht) HJ). cbn [snd].
    split; [exact Em|]. split; [exact HkJ|].
    apply all_some_map. rewrite map_map. apply map_ext_in. intros p Hp. apply positions_in in Hp. destruct Hp as (k & c & Hk1 & Hc & ->).
    specialize (HkJ k Hk1). pose proof (Hs t Ht). unfold get.
    destruct (nth_error (at_rank K bs t) (k + c * dof t)) as [v|] eqn:E.
    - rewrite (nth_error_nth _ _ _ E). reflexivity.
    - apply nth_error_None in E. nia.
  Qed.

  Lemma receive_ok : forall bs mu r t I J b, (mu * dof r <= length b)%nat -> (forall k, In k I -> (k < dof r)%nat) -> length I = length J ->
    exists b', receive K S r mu I (map (get (at_rank K bs t)) (positions (dof t) mu J)) b = Some b' /\ length b' = length b /\
      (forall i c, (i < dof r)%nat -> (c < mu)%nat -> get b' (i + c * dof r) =
         get b (i + c * dof r) + lsum (combine I J) (fun kk => if (fst kk =? i)%nat then get (at_rank K bs t) (snd kk + c * dof t) else 0)) /\
      (forall p, (mu * dof r <= p)%nat -> get b' p = get b p).
  Proof.
    intros bs mu r t I J b Hb HI HL. unfold receive. rewrite map_length, positions_length, <- HL, Nat.eqb_refl.
    set (l := combine (positions (dof r) mu I) (map (get (at_rank K bs t)) (positions (dof t) mu J))).
    assert (Hl : forall pv, In pv l -> exists k c, In k I /\ (c < mu)%nat /\ fst pv = (k + c * dof r)%nat).
    { intros [p v] Hp. apply in_combine_l in Hp. apply positions_in in Hp. exact Hp. }
    destruct (fold_add1 l b) as (b' & E & L & V).
    { intros pv Hp. destruct (Hl pv Hp) as (k & c & Hk & Hc & ->). specialize (HI k Hk). nia. }
    exists b'. split; [exact E|]. split; [exact L|]. split.
    - intros i c Hi Hc. rewrite V. f_equal. subst l. unfold positions. rewrite map_flat_map, combine_flat_map by (intros; rewrite !map_length; exact HL).
      rewrite lsum_flat_map, <- sum_lsum. rewrite (sum_single K mu c); [|exact Hc|].
      + rewrite map_map, combine_map2, lsum_map. cbn [fst snd]. apply lsum_ext. intros [k k'] Hk. cbn [fst snd].
        destruct (Nat.eqb_spec (k + c * dof r) (i + c * dof r)); destruct (Nat.eqb_spec k i); try reflexivity; lia.
      + intros c' Hc' Hne. rewrite map_map, combine_map2, lsum_map. apply lsum_0. intros [k k'] Hk. cbn [fst snd].
        apply in_combine_l in Hk. specialize (HI k Hk). destruct (Nat.eqb_spec (k + c' * dof r) (i + c * dof r)) as [Eq|]; [|reflexivity].
        exfalso. apply Hne. clear - Eq Hi HI. destruct (Nat.lt_trichotomy c' c) as [H|[H|H]]; [|exact H|]; nia.
    - intros p Hp. rewrite V. rewrite lsum_0; [ring|]. intros pv Hpv. destruct (Hl pv Hpv) as (k & c & Hk & Hc & ->). specialize (HI k Hk).
      destruct (Nat.eqb_spec (k + c * dof r) p); [nia|reflexivity].
  Qed.

  (** The exchange adds, to every coefficient, those of the neighbours. *)
  Definition contribution (bs : list buf) (r c i : nat) (e : nat * list nat) : C :=
    lsum (combine (snd e) (theirs r e)) (fun kk => if (fst kk =? i)%nat then get (at_rank K bs (fst e)) (snd kk + c * dof (fst e)) else 0).
  Lemma receives_ok : forall bs mu r l, (r < P)%nat -> local_sizes S mu bs -> (forall e, In e l -> In e (shared r)) -> forall b, (mu * dof r <= length b)%nat ->
    exists b', fold_opt K (fun e b => do m <- message K S bs mu (fst e) r; receive K S r mu (snd e) m b) l b = Some b' /\ length b' = length b /\
      (forall i c, (i < dof r)%nat -> (c < mu)%nat -> get b' (i + c * dof r) = get b (i + c * dof r) + lsum l (contribution bs r c i)) /\
      (forall p, (mu * dof r <= p)%nat -> get b' p = get b p).
  Proof.
    intros bs mu r l Hr Hs. induction l as [|a l IH]; intros Hl b Hb.
    - exists b. split; [reflexivity|]. split; [reflexivity|]. split; [intros; cbn [lsum]; ring|reflexivity].
    - cbn [fold_opt]. destruct (message_ok bs mu r a Hr Hs (Hl a (or_introl eq_refl))) as (Em & Hk & ->).
      assert (He : In (fst a, snd a) (shared r)) by (rewrite <- surjective_pairing; apply Hl; left; reflexivity).
      destruct (ov_match K S l2g HO r _ _ Hr He) as (_ & _ & _ & HkI & _).
      destruct (receive_ok bs mu r (fst a) (snd a) (theirs r a) b Hb HkI) as (b2 & E1 & L1 & V1 & W1).
      { apply (f_equal (@length _)) in Em. rewrite !map_length in Em. exact Em. }
      rewrite E1. destruct (IH ltac:(intros; apply Hl; right; assumption) b2 ltac:(lia)) as (b' & E & L & V & W).
      exists b'. split; [exact E|]. split; [lia|]. split.
      + intros i c Hi Hc. rewrite (V i c Hi Hc), (V1 i c Hi Hc). cbn [lsum]. unfold contribution at 2. ring.
      + intros p Hp. rewrite (W p Hp). apply W1. exact Hp.
  Qed.

  (** Coefficients of the processes on their own part, zero on the overlap: the exchange fills the overlap. *)
  Lemma exchange_ok : forall arrival mu bs Y, all_arrive S arrival -> local_sizes S mu bs ->
    (forall r o s i c, (r < P)%nat -> nth_error (pa_parts T) r = Some (o, s) -> (i < dof r)%nat -> (c < mu)%nat ->
       get (at_rank K bs r) (i + c * dof r) = if (i <? s)%nat then Y (l2g r i) c else 0) ->
    exists bs', exchange K S arrival mu bs = Some bs' /\ restrictions S l2g bs' mu Y /\
      forall r, (r < P)%nat -> only_first (dof r * mu) (at_rank K bs r) (at_rank K bs' r).
  Proof.
    intros arrival mu bs Y Ha Hs Hv. unfold exchange.
    destruct (on_ranks_ok buf [] P (fun r => fold_opt K (fun e b => do m <- message K S bs mu (fst e) r; receive K S r mu (snd e) m b) (arrival r) (at_rank K bs r))
      (fun r b => only_first (dof r * mu) (at_rank K bs r) b /\ forall i c, (i < dof r)%nat -> (c < mu)%nat -> get b (i + c * dof r) = Y (l2g r i) c)) as (bs' & E & L & V).
    { intros r Hr. specialize (Ha r Hr).
      destruct (receives_ok bs mu r (arrival r) Hr Hs) with (b := at_rank K bs r) as (b & E & L & V & W).
      { intros e He. apply (Permutation_in _ Ha). exact He. }
      { specialize (Hs r Hr). lia. }
      exists b. split; [exact E|]. split.
      { split; [exact L|]. intros p Hp. apply W. lia. }
      intros i c Hi Hc. rewrite (V i c Hi Hc). rewrite (lsum_perm K _ _ _ (contribution bs r c i) Ha).
      destruct (part_nth T P HT r Hr) as (o & s & Er & _). rewrite (Hv r o s i c Hr Er Hi Hc).
      (* a pair of shared positions *)
      assert (Hpair : forall e kk, In e (shared r) -> In kk (combine (snd e) (theirs r e)) -> (fst e < P)%nat /\ fst e <> r /\ l2g r (fst kk) = l2g (fst e) (snd kk) /\ (snd kk < dof (fst e))%nat).
      { intros [t I] kk He Hk. cbn [fst snd] in *. destruct (ov_match K S l2g HO r t I Hr He) as (Ht & Hne & _).
        destruct (message_ok bs mu r (t, I) Hr Hs He) as (Em & HkJ & _). cbn [fst snd] in *. split; [exact Ht|]. split; [exact Hne|]. split.
        - exact (map_eq_pairs _ _ _ _ _ _ _ Em kk Hk).
        - apply HkJ. destruct kk as [a b0]. apply in_combine_r in Hk. exact Hk. }
      destruct (Nat.ltb_spec i s) as [Hin|Hout].
      - rewrite lsum_0; [ring|]. intros e He. unfold contribution. apply lsum_0. intros kk Hk.
        destruct (Nat.eqb_spec (fst kk) i) as [Ek|]; [|reflexivity].
        destruct (Hpair e kk He Hk) as (Ht & Hne & Eg & Hd). rewrite Ek in Eg.
        destruct (part_nth T P HT (fst e) Ht) as (o' & s' & Et & _). rewrite (Hv (fst e) o' s' (snd kk) c Ht Et Hd Hc).
        destruct (Nat.ltb_spec (snd kk) s') as [Hin'|]; [|reflexivity]. exfalso. apply Hne.
        rewrite (ov_inside K S l2g HO r o s i Er Hin), (ov_inside K S l2g HO (fst e) o' s' (snd kk) Et Hin') in Eg.
        destruct (index_owner r o s i (fst e) o' s' (snd kk) Er Et Hin Hin' Eg) as [-> _]. reflexivity.
      - destruct (ov_cover K S l2g HO r o s i Er (conj Hout Hi)) as (t & o' & s' & k & I & Et & Hk & Eg & He & HiI).
        destruct (ov_match K S l2g HO r t I Hr He) as (Ht & Hne & HnI & _).
        rewrite (lsum_one (nat * list nat) fst (shared r) (contribution bs r c i) (t, I) (ov_distinct K S l2g HO r Hr) He).
        + unfold contribution. cbn [fst snd]. destruct (message_ok bs mu r (t, I) Hr Hs He) as (Em & _). cbn [fst snd] in Em.
          assert (LL : length I = length (theirs r (t, I))) by (apply (f_equal (@length _)) in Em; rewrite !map_length in Em; exact Em).
          destruct (In_nth I i 0%nat HiI) as (q & Hq & Eq).
          assert (Hin2 : In (i, nth q (theirs r (t, I)) 0%nat) (combine I (theirs r (t, I)))).
          { rewrite <- Eq at 1. rewrite <- (combine_nth I (theirs r (t, I)) q 0%nat 0%nat LL). apply nth_In. rewrite combine_length. lia. }
          rewrite (lsum_one (nat * nat) fst _ _ (i, nth q (theirs r (t, I)) 0%nat)).
          * cbn [fst snd]. rewrite Nat.eqb_refl. destruct (Hpair (t, I) _ He Hin2) as (_ & _ & Eg2 & Hd2). cbn [fst snd] in Eg2, Hd2.
            set (j := nth q (theirs r (t, I)) 0%nat) in *.
            assert (Hjs : (j < s')%nat).
            { destruct (Nat.lt_ge_cases j s') as [|Hge]; [assumption|exfalso].
              destruct (ov_cover K S l2g HO t o' s' j Et (conj Hge Hd2)) as (t2 & o2 & s2 & k2 & I2 & Et2 & Hk2 & Eg3 & He2 & _).
              rewrite <- Eg2, Eg in Eg3. destruct (index_owner t o' s' k t2 o2 s2 k2 Et Et2 Hk Hk2 Eg3) as [-> _].
              destruct (ov_match K S l2g HO _ _ _ Ht He2) as (_ & Hne2 & _). congruence. }
            rewrite (Hv t o' s' j c Ht Et Hd2 Hc). destruct (Nat.ltb_spec j s'); [|lia]. rewrite Eg2. ring.
          * rewrite combine_fst by exact LL. exact HnI.
          * exact Hin2.
          * intros kk _ Hkk. cbn [fst] in Hkk. destruct (Nat.eqb_spec (fst kk) i); [congruence|reflexivity].
        + intros e He2 Hne2. cbn [fst] in Hne2. unfold contribution. apply lsum_0. intros kk Hk2.
          destruct (Nat.eqb_spec (fst kk) i) as [Ek|]; [|reflexivity].
          destruct (Hpair e kk He2 Hk2) as (Ht2 & _ & Eg2 & Hd2). rewrite Ek in Eg2.
          destruct (part_nth T P HT (fst e) Ht2) as (o2 & s2 & Et2 & _). rewrite (Hv (fst e) o2 s2 (snd kk) c Ht2 Et2 Hd2 Hc).
          destruct (Nat.ltb_spec (snd kk) s2) as [Hin2|]; [|reflexivity]. exfalso. apply Hne2.
          rewrite Eg, (ov_inside K S l2g HO (fst e) o2 s2 (snd kk) Et2 Hin2) in Eg2.
          destruct (index_owner t o' s' k (fst e) o2 s2 (snd kk) Et Et2 Hk Hin2 Eg2) as [-> _]. reflexivity. }
    exists bs'. split; [exact E|]. split.
    - split; [exact L|]. intros r Hr. destruct (V r Hr) as [[H1 _] H2]. split; [|exact H2]. unfold at_rank at 1. specialize (Hs r Hr). unfold at_rank in *. lia.
    - intros r Hr. exact (proj1 (V r Hr)).
  Qed.
End D.
