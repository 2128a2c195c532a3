(** * Proofs for the local numbering with overlap and the GenEO threshold. *)

From Coq Require Import List Arith Bool Lia Permutation.
From Verif Require Import ClusterModel IOModel Algebra BlasModel HMatModel DistModel DistMat SolverModel.
Import ListNotations.

Lemma upd_ok : forall A (l : list A) i a, i < length l ->
  exists l', upd l i a = Some l' /\ length l' = length l /\ forall k, nth_error l' k = if k =? i then Some a else nth_error l k.
Proof.
  induction l as [|b l IH]; intros [|i] a Hi; cbn [length] in *; try lia.
  - exists (a :: l). split; [reflexivity|]. split; [reflexivity|]. intros [|k]; reflexivity.
  - destruct (IH i a ltac:(lia)) as (l' & E1 & E2 & E3). cbn [upd]. rewrite E1. exists (b :: l'). split; [reflexivity|]. split; [cbn; lia|].
    intros [|k]; [reflexivity|]. cbn [nth_error]. apply E3.
Qed.
Lemma nodup_bound : forall l n, NoDup l -> (forall k, In k l -> k < n) -> length l <= n.
Proof.
  intros l n Hd Hb. rewrite <- (seq_length n 0). apply NoDup_incl_length; [exact Hd|]. intros k Hk. apply in_seq. specialize (Hb k Hk). lia.
Qed.

Lemma nodup_l : forall (l1 l2 : list nat), NoDup (l1 ++ l2) -> NoDup l1.
Proof.
  induction l1 as [|a l1 IH]; intros l2 H; [constructor|]. cbn [app] in H. inversion H; subst. constructor; [|exact (IH l2 H3)].
  intros Hi. apply H2. apply in_or_app. left. exact Hi.
Qed.

Section Numbering.
  Variables (ovr clu : list nat).
  Notation n := (length ovr).
  Hypothesis Hd : NoDup clu.
  Hypothesis Hb : forall k, In k clu -> k < n.

  Definition ord_ok (O : list nat) (renum : list (option nat)) (l2g : list nat) : Prop :=
    length renum = n /\ length l2g = n /\
    (forall k, k < n -> match nth_error renum k with Some (Some p) => nth_error O p = Some k | Some None => ~ In k O | None => False end) /\
    forall p, p < length O -> nth_error l2g p = nth_error ovr (nth p O 0).

  Lemma ord_step : forall O renum l2g k, ord_ok O renum l2g -> NoDup (O ++ [k]) -> (forall q, In q (O ++ [k]) -> q < n) ->
    exists renum' g l2g', upd renum k (Some (length O)) = Some renum' /\ nth_error ovr k = Some g /\ upd l2g (length O) g = Some l2g' /\
      ord_ok (O ++ [k]) renum' l2g'.
  Proof.
    intros O renum l2g k (L1 & L2 & HR & HG) Hn Hq.
    assert (Hk : k < n) by (apply Hq, in_or_app; right; left; reflexivity).
    assert (HO : length O < n). { pose proof (nodup_bound (O ++ [k]) n Hn Hq) as Q. rewrite app_length in Q. cbn in Q. lia. }
    assert (Hko : ~ In k O). { intros Hi. apply NoDup_remove_2 in Hn. rewrite app_nil_r in Hn. exact (Hn Hi). }
    destruct (upd_ok _ renum k (Some (length O)) ltac:(lia)) as (renum' & E1 & E2 & E3).
    destruct (nth_error ovr k) as [g|] eqn:Eg; [|apply nth_error_None in Eg; lia].
    destruct (upd_ok _ l2g (length O) g ltac:(lia)) as (l2g' & F1 & F2 & F3).
    exists renum', g, l2g'. split; [exact E1|]. split; [reflexivity|]. split; [exact F1|]. split; [lia|]. split; [lia|]. split.
    - intros q Hq'. rewrite E3. destruct (Nat.eqb_spec q k) as [->|Nk].
      + rewrite nth_error_app2 by lia. rewrite Nat.sub_diag. reflexivity.
      + specialize (HR q Hq'). destruct (nth_error renum q) as [[p|]|]; [| |exact HR].
        * rewrite nth_error_app1; [exact HR|]. apply nth_error_Some. congruence.
        * intros Hi. apply in_app_or in Hi. destruct Hi as [Hi|[->|[]]]; [exact (HR Hi)|exact (Nk eq_refl)].
    - intros p Hp. rewrite app_length in Hp. cbn in Hp. rewrite F3. destruct (Nat.eqb_spec p (length O)) as [->|Np].
      + rewrite app_nth2 by lia. rewrite Nat.sub_diag. cbn [nth]. symmetry. exact Eg.
      + rewrite app_nth1 by lia. apply HG. lia.
  Qed.
  Lemma firstn_S : forall A (l : list A) i a, nth_error l i = Some a -> firstn (S i) l = firstn i l ++ [a].
  Proof. induction l as [|b l IH]; intros [|i] a E; try discriminate; cbn [firstn app nth_error] in *; [congruence|]. f_equal. apply IH. exact E. Qed.

  Lemma inside_ok : exists renum l2g, number_inside ovr clu n = Some (renum, l2g) /\ ord_ok clu renum l2g.
  Proof.
    unfold number_inside.
    destruct (foldM_inv (list (option nat) * list nat) (fun i st =>
      do c <- nth_error clu i; do renum <- upd (fst st) c (Some i); do g <- nth_error ovr c; do l2g <- upd (snd st) i g; Some (renum, l2g))
      (fun i st => ord_ok (firstn i clu) (fst st) (snd st)) (length clu) (repeat None n, repeat 0 n)) as (x & E1 & E2).
    - cbn [firstn fst snd]. split; [apply repeat_length|]. split; [apply repeat_length|]. split; [|intros p Hp; cbn in Hp; lia].
      intros k Hk. assert (Q : nth_error (repeat (@None nat) n) k = Some None).
      { clear - Hk. revert k Hk. induction n as [|m IHm]; intros [|k] Hk; cbn; try lia; [reflexivity|]. apply IHm. lia. }
      rewrite Q. intros [].
    - intros i [renum l2g] Hi HO. cbn [fst snd] in *. destruct (nth_error clu i) as [c|] eqn:Ec; [|apply nth_error_None in Ec; lia].
      assert (Li : length (firstn i clu) = i) by (rewrite firstn_length; lia). pose proof (firstn_S _ _ _ _ Ec) as ES.
      destruct (ord_step (firstn i clu) renum l2g c HO) as (r' & g & l' & U1 & U2 & U3 & U4).
      + rewrite <- ES. rewrite <- (firstn_skipn (S i) clu) in Hd. exact (nodup_l _ _ Hd).
      + intros q Hq. apply Hb. rewrite <- ES in Hq. rewrite <- (firstn_skipn (S i) clu). apply in_or_app. left. exact Hq.
      + rewrite Li in U1, U3. rewrite U1, U2, U3. exists (r', l'). split; [reflexivity|]. cbn [fst snd]. rewrite ES. exact U4.
    - destruct x as [renum l2g]. exists renum, l2g. split; [exact E1|]. cbn [fst snd] in E2. rewrite firstn_all in E2. exact E2.
  Qed.

  (** The overlap points: those that are not in the cluster, in order. *)
  Definition outside (i : nat) : list nat := filter (fun k => negb (existsb (Nat.eqb k) clu)) (seq 0 i).
  Lemma in_outside : forall i k, In k (outside i) <-> k < i /\ ~ In k clu.
  Proof.
    intros i k. unfold outside. rewrite filter_In, in_seq. split.
    - intros [H1 H2]. split; [lia|]. intros Hi. apply negb_true_iff in H2. assert (Q : existsb (Nat.eqb k) clu = true) by (apply existsb_exists; exists k; split; [exact Hi|apply Nat.eqb_refl]). congruence.
    - intros [H1 H2]. split; [lia|]. apply negb_true_iff. destruct (existsb (Nat.eqb k) clu) eqn:E; [|reflexivity]. apply existsb_exists in E. destruct E as (q & Hq & E). apply Nat.eqb_eq in E. subst q. contradiction.
  Qed.
  Lemma outside_S : forall i, outside (S i) = outside i ++ (if existsb (Nat.eqb i) clu then [] else [i]).
  Proof. intros i. unfold outside. rewrite seq_S, filter_app. cbn [Nat.add filter]. destruct (existsb (Nat.eqb i) clu); reflexivity. Qed.
  Lemma order_nodup : forall i, NoDup (clu ++ outside i).
  Proof.
    intros i. assert (G : forall l1 l2 : list nat, NoDup l1 -> NoDup l2 -> (forall k, In k l1 -> ~ In k l2) -> NoDup (l1 ++ l2)).
    { induction l1 as [|x l1 IH]; intros l2 H1 H2 H3; [exact H2|]. inversion H1; subst. cbn [app]. constructor.
      - intros Hx. apply in_app_or in Hx. destruct Hx as [Hx|Hx]; [contradiction|]. exact (H3 x (or_introl eq_refl) Hx).
      - apply IH; [assumption|assumption|]. intros k Hk. apply H3. right. exact Hk. }
    apply G; [exact Hd|apply NoDup_filter, seq_NoDup|]. intros k Hk Ho. apply in_outside in Ho. destruct Ho. contradiction.
  Qed.
  Lemma order_bound : forall i k, i <= n -> In k (clu ++ outside i) -> k < n.
  Proof. intros i k Hi Hk. apply in_app_or in Hk. destruct Hk as [Hk|Hk]; [apply Hb; exact Hk|]. apply in_outside in Hk. lia. Qed.

  Lemma overlap_ok : forall renum l2g, ord_ok clu renum l2g ->
    exists renum' l2g' c, number_overlap ovr (renum, l2g, length clu) n = Some (renum', l2g', c) /\ ord_ok (clu ++ outside n) renum' l2g'.
  Proof.
    intros renum l2g H0. unfold number_overlap.
    destruct (foldM_inv (list (option nat) * list nat * nat) (fun i st => let '(renum, l2g, count) := st in
      do x <- nth_error renum i;
      match x with Some _ => Some st | None => do renum' <- upd renum i (Some count); do g <- nth_error ovr i; do l2g' <- upd l2g count g; Some (renum', l2g', S count) end)
      (fun i st => ord_ok (clu ++ outside i) (fst (fst st)) (snd (fst st)) /\ snd st = length (clu ++ outside i)) n (renum, l2g, length clu)) as (x & E1 & E2).
    - cbn [fst snd]. change (outside 0) with (@nil nat). rewrite app_nil_r. auto.
    - intros i [[rn lg] c] Hi [HO Hc]. cbn [fst snd] in *. pose proof HO as (L1 & L2 & HR & _). specialize (HR i Hi).
      pose proof (outside_S i) as OS.
      destruct (nth_error rn i) as [[p|]|] eqn:Er; [| |contradiction].
      + assert (Hin : In i clu).
        { apply nth_error_In in HR. apply in_app_or in HR. destruct HR as [HR|HR]; [exact HR|]. apply in_outside in HR. lia. }
        assert (Ex : existsb (Nat.eqb i) clu = true) by (apply existsb_exists; exists i; split; [exact Hin|apply Nat.eqb_refl]).
        rewrite Ex, app_nil_r in OS. rewrite OS. exists (rn, lg, c). auto.
      + assert (Hin : ~ In i clu) by (intros Q; apply HR; apply in_or_app; left; exact Q).
        assert (Ex : existsb (Nat.eqb i) clu = false).
        { destruct (existsb (Nat.eqb i) clu) eqn:Ex; [|reflexivity]. apply existsb_exists in Ex. destruct Ex as (q & Hq & Q). apply Nat.eqb_eq in Q. subst q. contradiction. }
        rewrite Ex in OS.
        assert (EO : clu ++ outside (S i) = (clu ++ outside i) ++ [i]) by (rewrite OS, app_assoc; reflexivity).
        destruct (ord_step (clu ++ outside i) rn lg i HO) as (r' & g & l' & U1 & U2 & U3 & U4).
        * rewrite <- EO. apply order_nodup.
        * intros q Hq. rewrite <- EO in Hq. apply (order_bound (S i)); [lia|exact Hq].
        * rewrite Hc. rewrite U1, U2, U3. exists (r', l', S (length (clu ++ outside i))). split; [reflexivity|]. cbn [fst snd]. rewrite EO. split; [exact U4|]. rewrite (app_length _ [i]). cbn. lia.
    - destruct x as [[rn lg] c]. exists rn, lg, c. split; [exact E1|]. cbn [fst snd] in E2. apply E2.
  Qed.
  Lemma order_perm : Permutation (clu ++ outside n) (seq 0 n).
  Proof.
    apply NoDup_Permutation; [apply order_nodup|apply seq_NoDup|]. intros k. rewrite in_seq. split.
    - intros Hk. apply (order_bound n) in Hk; lia.
    - intros Hk. destruct (in_dec Nat.eq_dec k clu) as [Hi|Hi]; apply in_or_app; [left; exact Hi|right]. apply in_outside. split; [lia|exact Hi].
  Qed.
  Lemma all_some_map : forall A B (f : A -> option B) (l : list A) (R : A -> B -> Prop), (forall a, In a l -> exists b, f a = Some b /\ R a b) ->
    exists l', all_some (map f l) = Some l' /\ Forall2 R l l'.
  Proof.
    induction l as [|a l IH]; intros R H; [exists []; split; [reflexivity|constructor]|].
    destruct (H a (or_introl eq_refl)) as (b & E & Q). destruct (IH R (fun a' Ha => H a' (or_intror Ha))) as (l' & E' & Q').
    cbn [map all_some]. rewrite E, E'. exists (b :: l'). split; [reflexivity|constructor; assumption].
  Qed.
  Lemma nth_error_ext : forall A (l l' : list A), (forall p, nth_error l p = nth_error l' p) -> l = l'.
  Proof.
    induction l as [|a l IH]; intros [|b l'] H; [reflexivity|specialize (H 0); discriminate|specialize (H 0); discriminate|].
    pose proof (H 0) as H0. cbn in H0. injection H0 as <-. f_equal. apply IH. intros p. exact (H (S p)).
  Qed.

  Lemma numbering_ok : forall inter, (forall l k, In l inter -> In k l -> k < n) ->
    exists l2g inter', local_numbering ovr clu inter = Some (l2g, inter') /\
      l2g = map (fun k => nth k ovr 0) (clu ++ outside n) /\
      Forall2 (Forall2 (fun k k' => k' < n /\ nth k' l2g 0 = nth k ovr 0 /\ nth k' (clu ++ outside n) 0 = k)) inter inter'.
  Proof.
    intros inter Hi. unfold local_numbering. destruct inside_ok as (rn & lg & -> & H1). destruct (overlap_ok rn lg H1) as (rn2 & lg2 & c & -> & (L1 & L2 & HR & HG)).
    pose proof (Permutation_length order_perm) as LO. rewrite seq_length in LO.
    assert (EL : lg2 = map (fun k => nth k ovr 0) (clu ++ outside n)).
    { apply nth_error_ext. intros p. destruct (lt_dec p n) as [Lp|Lp].
      - rewrite HG by lia. rewrite nth_error_map. destruct (nth_error (clu ++ outside n) p) as [k|] eqn:Ek; [|apply nth_error_None in Ek; lia].
        cbn [option_map]. rewrite (nth_error_nth _ _ 0 Ek). apply nth_error_nth'. apply (order_bound n); [lia|]. apply nth_error_In in Ek. exact Ek.
      - rewrite !(proj2 (nth_error_None _ p)); [reflexivity| |]; [rewrite map_length; lia|lia]. }
    set (R := fun k k' => k' < n /\ nth k' lg2 0 = nth k ovr 0 /\ nth k' (clu ++ outside n) 0 = k).
    destruct (all_some_map _ _ (fun l => all_some (map (fun k => do x <- nth_error rn2 k; x) l)) inter (Forall2 R)) as (inter' & E & Q).
    - intros l Hl. apply all_some_map. intros k Hk. specialize (Hi l k Hl Hk). specialize (HR k Hi).
      destruct (nth_error rn2 k) as [[p|]|] eqn:Ep; [| |contradiction].
      + exists p. split; [reflexivity|]. assert (Lp : p < n) by (rewrite <- LO; apply nth_error_Some; congruence). split; [exact Lp|].
        split; [|apply nth_error_nth; exact HR]. rewrite EL. rewrite (nth_indep _ 0 (nth 0 ovr 0)) by (rewrite map_length; lia). rewrite (map_nth (fun k => nth k ovr 0)). f_equal. apply nth_error_nth. exact HR.
      + exfalso. apply HR. apply (Permutation_in (l := seq 0 n)); [apply Permutation_sym, order_perm|apply in_seq; lia].
    - rewrite E. exists lg2, inter'. split; [reflexivity|]. split; [exact EL|exact Q].
  Qed.
End Numbering.

(** ** The threshold *)
Section Threshold.
  Variable (keep : nat -> bool) (index : list nat).
  (** Once an index is not kept, no later one is. *)
  Hypothesis Hmono : forall i j a b, i < j -> nth_error index i = Some a -> nth_error index j = Some b -> keep b = true -> keep a = true.
  Lemma first_false : forall fuel nevi, (forall i a, i < nevi -> nth_error index i = Some a -> keep a = true) ->
    (exists j b, nevi <= j /\ nth_error index j = Some b /\ keep b = false) -> length index < nevi + fuel ->
    forall f : nat -> nat -> option nat,
    (forall k v, f (S k) v = do x <- nth_error index v; if keep x && (v <? length index) then f k (S v) else Some v) ->
    exists m, f fuel nevi = Some m /\ m <= length index /\
      (forall i a, nth_error index i = Some a -> (i < m <-> keep a = true)).
  Proof.
    induction fuel as [|fuel IH]; intros nevi Hk (j & b & Hj & Eb & Fb) Hl f Hf.
    - assert (j < length index) by (apply nth_error_Some; congruence). lia.
    - rewrite Hf. destruct (nth_error index nevi) as [a|] eqn:Ea.
      2: { apply nth_error_None in Ea. assert (j < length index) by (apply nth_error_Some; congruence). lia. }
      assert (Ln : nevi < length index) by (apply nth_error_Some; congruence).
      destruct (keep a) eqn:Ka; cbn [andb].
      + replace (nevi <? length index) with true by (symmetry; apply Nat.ltb_lt; exact Ln).
        apply IH; [| |lia|exact Hf].
        * intros i c Hi Ec. destruct (Nat.eq_dec i nevi) as [->|Ni]; [congruence|]. apply (Hk i c); [lia|exact Ec].
        * exists j, b. split; [|auto]. destruct (Nat.eq_dec j nevi) as [->|Nj]; [congruence|lia].
      + exists nevi. split; [reflexivity|]. split; [lia|]. intros i c Ec. split; [intros Hi; exact (Hk i c Hi Ec)|].
        intros Kc. destruct (lt_dec i nevi) as [L|L]; [exact L|]. exfalso.
        destruct (Nat.eq_dec i nevi) as [->|Ni]; [congruence|]. assert (keep a = true) by (apply (Hmono nevi i a c); [lia|exact Ea|exact Ec|exact Kc]). congruence.
  Qed.
End Threshold.
Lemma nth_error_firstn' : forall A (l : list A) m i, i < m -> nth_error (firstn m l) i = nth_error l i.
Proof.
  induction l as [|x l IH]; intros [|m] [|i] H; try lia; cbn [firstn nth_error]; try reflexivity. apply IH. lia.
Qed.
Lemma in_firstn_nth : forall (l : list nat) m k, m <= length l -> In k (firstn m l) <-> exists i, i < m /\ nth_error l i = Some k.
Proof.
  intros l m k Hm. split.
  - intros H. apply In_nth_error in H. destruct H as (i & E). assert (i < length (firstn m l)) by (apply nth_error_Some; congruence).
    rewrite firstn_length in H. exists i. split; [lia|]. rewrite <- E. symmetry. apply nth_error_firstn'. lia.
  - intros (i & Hi & E). apply (nth_error_In _ i). rewrite nth_error_firstn' by exact Hi. exact E.
Qed.
