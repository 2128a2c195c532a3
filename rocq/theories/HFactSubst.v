(** * Block substitution: the loops of the triangular solves. *)

From Coq Require Import List Arith ZArith Bool Permutation Lia Ring.
From Verif Require Import ClusterModel ClusterSpec IOModel IOSpec BlockModel BlockSpec BlockSym Algebra BlasModel HMatModel HMatSpec HMatBuild Field
  DenseModel DenseSpec DistModel ArithModel ArithSpec ArithTree HFactModel HFactSpec.
Import ListNotations.

Lemma fold_o_inv : forall {A B} (f : A -> B -> option B) (P : list A -> B -> Prop) l,
  (forall pre x post b, l = pre ++ x :: post -> P pre b -> exists b', f x b = Some b' /\ P (pre ++ [x]) b') ->
  forall b, P [] b -> exists b', fold_o f l b = Some b' /\ P l b'.
Proof.
  intros A B f P l H. assert (G : forall suf pre b, l = pre ++ suf -> P pre b -> exists b', fold_o f suf b = Some b' /\ P l b').
  { induction suf as [|x suf IH]; intros pre b E HP; [exists b; split; [reflexivity|]; rewrite E, app_nil_r; exact HP|].
    destruct (H pre x suf b E HP) as (b1 & E1 & P1). cbn [fold_o]. rewrite E1. apply (IH (pre ++ [x])); [rewrite <- app_assoc; exact E|exact P1]. }
  intros b HP. apply (G l [] b eq_refl HP).
Qed.

Lemma inc_iv : forall c i, in_iv i (interval c) = true <-> inc c i.
Proof. intros c i. unfold inc. rewrite in_ivb. unfold interval, c_off, c_size. cbn [fst snd]. lia. Qed.
Lemma inc_dec : forall c i, {inc c i} + {~ inc c i}.
Proof. intros c i. unfold inc. destruct (le_dec (c_off c) i), (lt_dec i (c_off c + c_size c)); [left; lia|right; lia|right; lia|right; lia]. Qed.

Section P.
  Variable F : Fld.
  Notation K := (fk F).
  Notation C := (car K).
  Notation "0" := (c0 K).
  Notation "1" := (c1 K).
  Notation "x + y" := (cadd K x y) (at level 50, left associativity).
  Notation "x - y" := (csub K x y) (at level 50, left associativity).
  Notation "x * y" := (cmul K x y) (at level 40, left associativity).
  Add Ring Kring_hfs : (c_ring K).
  Variable parts : ctree -> list ctree.
  Notation ct := (cluster_tree parts).

  Lemma kid_unique : forall c p q x, ct c -> In p (ckids c) -> In q (ckids c) -> inc p x -> inc q x -> p = q.
  Proof.
    intros c p q x H Hp Hq Xp Xq. destruct (tiles_pair _ _ _ p q (ckids_tiles parts c H) Hp Hq) as [E|E]; [exact E|].
    unfold disj, inc in *. lia.
  Qed.
  Lemma kid_inc : forall c p x, ct c -> In p (ckids c) -> inc p x -> inc c x.
  Proof. intros c p x H Hp Hx. pose proof (ckids_in parts c p H Hp). unfold inc in *. lia. Qed.
  Lemma inc_kid : forall c x, ct c -> inc c x -> exists p, In p (ckids c) /\ inc p x.
  Proof.
    intros c x H Hx. assert (Q : (c_off c <= x < c_off c + c_size c)%nat) by exact Hx.
    destruct (tiles_find _ _ _ x (ckids_tiles parts c H) Q) as (p & Hp & Hi). exists p. split; [exact Hp|]. apply inc_iv, Hi.
  Qed.
  Lemma csum_inc : forall c (f g : nat -> C), (forall k, inc c k -> f k = g k) -> csum c f = csum c g.
  Proof. intros c f g H. apply csum_ext. intros k Hk. apply H, inc_iv, Hk. Qed.
  Lemma csum_0 : forall c (f : nat -> C), (forall k, inc c k -> f k = 0) -> csum c f = 0.
  Proof. intros c f H. unfold csum. apply sum_0. intros k Hk. apply H. unfold inc. lia. Qed.

  (** ** Substitution, block by block *)
  Section Prog.
    Variables (G : nat -> nat -> C) (c : ctree) (ord : list ctree).
    Hypothesis Hc : ct c.
    Hypothesis Hord : Permutation ord (ckids c).
    Hypothesis Hzero : forall pre o post, ord = pre ++ o :: post -> forall p a x, In p pre -> inc p a -> inc o x -> G a x = 0.

    Lemma ord_in : forall p, In p ord <-> In p (ckids c).
    Proof. intros p. split; apply Permutation_in; [exact Hord|apply Permutation_sym, Hord]. Qed.
    Lemma ord_nodup : NoDup ord.
    Proof. eapply Permutation_NoDup; [apply Permutation_sym, Hord|apply (ckids_nodup parts), Hc]. Qed.
    Lemma ord_split : forall pre o post, ord = pre ++ o :: post -> ~ In o pre /\ In o ord /\ (forall p, In p pre -> In p ord).
    Proof.
      intros pre o post E. split; [|split].
      - pose proof ord_nodup as N. rewrite E in N. apply NoDup_remove_2 in N. intros Q. apply N, in_app_iff. left. exact Q.
      - rewrite E. apply in_app_iff. right. left. reflexivity.
      - intros p Hp. rewrite E. apply in_app_iff. left. exact Hp.
    Qed.

    (** The blocks [done] of v satisfy the equations, the others are those of v0. *)
    Definition prog (done : list ctree) (v0 v : nat -> C) : Prop :=
      (forall p a, In p done -> inc p a -> lsum done (fun q => csum q (fun x => G a x * v x)) = v0 a) /\
      (forall p a, In p ord -> ~ In p done -> inc p a -> v a = v0 a).

    Lemma prog_0 : forall v0 v, (forall a, inc c a -> v a = v0 a) -> prog [] v0 v.
    Proof.
      intros v0 v H. split; [intros p a []|]. intros p a Hp _ Ha. apply H. apply (kid_inc c p); [exact Hc|apply ord_in, Hp|exact Ha].
    Qed.
    Lemma prog_step : forall pre o post v0 v v', ord = pre ++ o :: post -> prog pre v0 v ->
      (forall a, inc c a -> ~ inc o a -> v' a = v a) ->
      (forall a, inc o a -> csum o (fun x => G a x * v' x) = v0 a - lsum pre (fun q => csum q (fun x => G a x * v x))) ->
      prog (pre ++ [o]) v0 v'.
    Proof.
      intros pre o post v0 v v' E [P1 P2] Hu Hs. destruct (ord_split pre o post E) as (S1 & S2 & S3).
      assert (EQ : forall a, lsum pre (fun q => csum q (fun x => G a x * v' x)) = lsum pre (fun q => csum q (fun x => G a x * v x))).
      { intros a. apply lsum_ext. intros q Hq. apply csum_inc. intros x Hx. f_equal. apply Hu.
        - apply (kid_inc c q); [exact Hc|apply ord_in, S3, Hq|exact Hx].
        - intros Q. apply S1. rewrite <- (kid_unique c q o x); try assumption; apply ord_in; auto. }
      split.
      - intros p a Hp Ha. rewrite lsum_app. cbn [lsum]. rewrite EQ. apply in_app_iff in Hp. destruct Hp as [Hp|[<-|[]]].
        + rewrite (P1 p a Hp Ha). rewrite (csum_0 o); [ring|]. intros x Hx. rewrite (Hzero pre o post E p a x Hp Ha Hx). ring.
        + rewrite (Hs a Ha). ring.
      - intros p a Hp Hn Ha. assert (Np : p <> o) by (intros ->; apply Hn, in_app_iff; right; left; reflexivity).
        rewrite Hu; [apply (P2 p); [exact Hp| |exact Ha]|apply (kid_inc c p); [exact Hc|apply ord_in, Hp|exact Ha]|].
        + intros Q. apply Hn, in_app_iff. left. exact Q.
        + intros Q. apply Np. apply (kid_unique c p o a); try assumption; apply ord_in; assumption.
    Qed.
    Lemma prog_end : forall v0 v, prog ord v0 v -> forall a, inc c a -> csum c (fun x => G a x * v x) = v0 a.
    Proof.
      intros v0 v [P1 _] a Ha. destruct (inc_kid c a Hc Ha) as (p & Hp & Hpa). rewrite (csum_kids K parts c _ Hc).
      rewrite (lsum_perm K _ _ _ _ (Permutation_sym Hord)). apply (P1 p a); [apply ord_in, Hp|exact Hpa].
    Qed.

    (** ** The loops *)
    Variable fw : bool.
    Hypothesis Hbefore : forall pre o post, ord = pre ++ o :: post ->
      (forall m, In m pre -> ceq o m = false /\ before fw m o = true) /\ (forall m, In m post -> ceq o m = false /\ before fw m o = false).

    Variable St : Type.
    Variable Rep : St -> (nat -> nat -> C) -> Prop.
    Variable step : ctree -> ctree -> St -> option St.
    Variable solve : ctree -> ctree -> St -> option St.
    Variables (R Q : nat -> Prop).
    Hypothesis QR : forall r, Q r -> R r.
    (** everything but the rows Q of block p is unchanged *)
    Definition only (p : ctree) (V V' : nat -> nat -> C) : Prop := forall r x, R r -> inc c x -> ~ (Q r /\ inc p x) -> V' r x = V r x.
    Hypothesis Hstep : forall b V p m, Rep b V -> In p ord -> In m ord -> p <> m -> before fw m p = true ->
      exists b' V', step p m b = Some b' /\ Rep b' V' /\ only p V V' /\
        forall r a, Q r -> inc p a -> V' r a = V r a - csum m (fun x => G a x * V r x).
    Hypothesis Hsolve : forall b V p, Rep b V -> In p ord ->
      exists b' V', solve p p b = Some b' /\ Rep b' V' /\ only p V V' /\
        forall r a, Q r -> inc p a -> csum p (fun x => G a x * V' r x) = V r a.

    Definition body (p m : ctree) (b : St) : option St := if ceq p m then solve p m b else if before fw m p then step p m b else Some b.

    Lemma inner_ok : forall pre p post b V, ord = pre ++ p :: post -> Rep b V ->
      exists b' V', fold_o (body p) ord b = Some b' /\ Rep b' V' /\ only p V V' /\
        forall r a, Q r -> inc p a -> csum p (fun x => G a x * V' r x) = V r a - lsum pre (fun q => csum q (fun x => G a x * V r x)).
    Proof.
      intros pre p post b V E HR. destruct (Hbefore pre p post E) as [B1 B2]. destruct (ord_split pre p post E) as (S1 & S2 & S3).
      assert (G1 : forall l b0, (forall m, In m l -> In m pre) ->
        (exists V1, Rep b0 V1 /\ only p V V1 /\ (forall r a, Q r -> inc p a -> V1 r a = V r a)) ->
        exists b1 V1, fold_o (body p) l b0 = Some b1 /\ Rep b1 V1 /\ only p V V1 /\
          forall r a, Q r -> inc p a -> V1 r a = V r a - lsum l (fun q => csum q (fun x => G a x * V r x))).
      { intros l b0 Hl H0. destruct (fold_o_inv (body p) (fun done bb => exists V1, Rep bb V1 /\ only p V V1 /\
          forall r a, Q r -> inc p a -> V1 r a = V r a - lsum done (fun q => csum q (fun x => G a x * V r x))) l) with (b := b0) as (b1 & E1 & V1 & X).
        - intros dn m po bb El (V1 & R1 & O1 & U1). assert (Hm : In m pre) by (apply Hl; rewrite El; apply in_app_iff; right; left; reflexivity).
          destruct (B1 m Hm) as [C1 C2]. unfold body. rewrite C1, C2.
          assert (Np : p <> m) by (intros <-; apply S1, Hm).
          destruct (Hstep bb V1 p m R1 S2 (S3 m Hm) Np C2) as (b' & V' & E1 & R2 & O2 & U2). exists b'. split; [exact E1|]. exists V'. split; [exact R2|].
          split; [intros r x Hr Hx Hn; rewrite (O2 r x Hr Hx Hn); apply O1; assumption|].
          intros r a Hr Ha. rewrite (U2 r a Hr Ha), (U1 r a Hr Ha), lsum_app. cbn [lsum].
          rewrite (csum_inc m (fun x => G a x * V1 r x) (fun x => G a x * V r x)); [ring|]. intros x Hx. f_equal.
          apply O1; [apply QR, Hr|apply (kid_inc c m); [exact Hc|apply ord_in, S3, Hm|exact Hx]|]. intros [_ Hp]. apply Np.
          apply (kid_unique c p m x); try assumption; apply ord_in; auto.
        - destruct H0 as (V1 & R1 & O1 & U1). exists V1. split; [exact R1|]. split; [exact O1|]. intros r a Hr Ha. rewrite (U1 r a Hr Ha). cbn [lsum]. ring.
        - exists b1, V1. split; [exact E1|exact X]. }
      destruct (G1 pre b (fun m H => H)) as (b1 & V1 & E1 & R1 & O1 & U1).
      { exists V. split; [exact HR|]. split; [intros r x _ _ _; reflexivity|reflexivity]. }
      destruct (Hsolve b1 V1 p R1 S2) as (b2 & V2 & E2 & R2 & O2 & U2).
      assert (G2 : forall l bb, (forall m, In m l -> In m post) -> fold_o (body p) l bb = Some bb).
      { induction l as [|m l IH]; intros bb Hl; [reflexivity|]. cbn [fold_o]. unfold body at 1. destruct (B2 m (Hl m (or_introl eq_refl))) as [-> ->].
        apply IH. intros m' Hm'. apply Hl. right. exact Hm'. }
      assert (FA : forall l1 l2 bb, fold_o (body p) (l1 ++ l2) bb = match fold_o (body p) l1 bb with Some b' => fold_o (body p) l2 b' | None => None end).
      { induction l1 as [|m l1 IH]; intros l2 bb; [reflexivity|]. cbn [app fold_o]. destruct (body p m bb); [apply IH|reflexivity]. }
      exists b2, V2. split.
      { rewrite E at 1. rewrite FA, E1. cbn [fold_o]. unfold body at 1. rewrite ceq_refl, E2. apply G2. intros m Hm. exact Hm. }
      split; [exact R2|]. split; [intros r x Hr Hx Hn; rewrite (O2 r x Hr Hx Hn); apply O1; assumption|].
      intros r a Hr Ha. rewrite (U2 r a Hr Ha). apply U1; assumption.
    Qed.
  End Prog.

  (** The double loop: all the rows at once. *)
  Theorem loops_ok : forall (G : nat -> nat -> C) c ord, ct c -> Permutation ord (ckids c) ->
    (forall pre o post, ord = pre ++ o :: post -> forall p a x, In p pre -> inc p a -> inc o x -> G a x = 0) ->
    forall fw, (forall pre o post, ord = pre ++ o :: post ->
      (forall m, In m pre -> ceq o m = false /\ before fw m o = true) /\ (forall m, In m post -> ceq o m = false /\ before fw m o = false)) ->
    forall St (Rep : St -> (nat -> nat -> C) -> Prop) step (solve : ctree -> ctree -> St -> option St) (Q : nat -> Prop),
    (forall b V p m, Rep b V -> In p ord -> In m ord -> p <> m -> before fw m p = true ->
      exists b' V', step p m b = Some b' /\ Rep b' V' /\ only c Q Q p V V' /\
        forall r a, Q r -> inc p a -> V' r a = V r a - csum m (fun x => G a x * V r x)) ->
    (forall b V p, Rep b V -> In p ord ->
      exists b' V', solve p p b = Some b' /\ Rep b' V' /\ only c Q Q p V V' /\
        forall r a, Q r -> inc p a -> csum p (fun x => G a x * V' r x) = V r a) ->
    forall b V0, Rep b V0 ->
    exists b' V', fold_o (fun p => fold_o (body fw St step solve p) ord) ord b = Some b' /\ Rep b' V' /\
      forall r a, Q r -> inc c a -> csum c (fun x => G a x * V' r x) = V0 r a.
  Proof.
    intros G c ord Hc Ho Hz fw Hb St Rep step solve Q Hst Hso b V0 HR.
    destruct (fold_o_inv (fun p => fold_o (body fw St step solve p) ord) (fun pre b => exists V, Rep b V /\ forall r, Q r -> prog G ord pre (V0 r) (V r)) ord) with (b := b)
      as (b' & E & V & R1 & P1).
    - intros pre p post bb E (V & R1 & P1).
      destruct (inner_ok G c ord Hc Ho fw Hb St Rep step solve Q Q (fun _ H => H) Hst Hso pre p post bb V E R1) as (b' & V' & E1 & R2 & O2 & U2).
      exists b'. split; [exact E1|]. exists V'. split; [exact R2|]. intros r Hr. apply (prog_step G c ord Hc Ho Hz pre p post (V0 r) (V r) (V' r) E (P1 r Hr)).
      + intros a Ha Hn. apply O2; [exact Hr|exact Ha|tauto].
      + intros a Ha. rewrite (U2 r a Hr Ha). f_equal. destruct (P1 r Hr) as [_ P2]. destruct (ord_split c ord Hc Ho pre p post E) as (S1 & S2 & _).
        apply (P2 p); assumption.
    - exists V0. split; [exact HR|]. intros r Hr. apply (prog_0 G c ord Hc Ho). reflexivity.
    - exists b', V. split; [exact E|]. split; [exact R1|]. intros r a Hr Ha. apply (prog_end G c ord Hc Ho _ _ (P1 r Hr) a Ha).
  Qed.

  (** The triple loop: the rows are those of a cluster, block by block. *)
  Theorem loops3_ok : forall (G : nat -> nat -> C) c ord, ct c -> Permutation ord (ckids c) ->
    (forall pre o post, ord = pre ++ o :: post -> forall p a x, In p pre -> inc p a -> inc o x -> G a x = 0) ->
    forall fw, (forall pre o post, ord = pre ++ o :: post ->
      (forall m, In m pre -> ceq o m = false /\ before fw m o = true) /\ (forall m, In m post -> ceq o m = false /\ before fw m o = false)) ->
    forall o qs, ct o -> Permutation qs (ckids o) ->
    forall St (Rep : St -> (nat -> nat -> C) -> Prop) (step solve : ctree -> ctree -> ctree -> St -> option St),
    (forall q b V p m, In q qs -> Rep b V -> In p ord -> In m ord -> p <> m -> before fw m p = true ->
      exists b' V', step q p m b = Some b' /\ Rep b' V' /\ only c (inc o) (inc q) p V V' /\
        forall r a, inc q r -> inc p a -> V' r a = V r a - csum m (fun x => G a x * V r x)) ->
    (forall q b V p, In q qs -> Rep b V -> In p ord ->
      exists b' V', solve q p p b = Some b' /\ Rep b' V' /\ only c (inc o) (inc q) p V V' /\
        forall r a, inc q r -> inc p a -> csum p (fun x => G a x * V' r x) = V r a) ->
    forall b V0, Rep b V0 ->
    exists b' V', fold_o (fun p => fold_o (fun q => fold_o (body fw St (step q) (solve q) p) ord) qs) ord b = Some b' /\ Rep b' V' /\
      forall r a, inc o r -> inc c a -> csum c (fun x => G a x * V' r x) = V0 r a.
  Proof.
    intros G c ord Hc Ho Hz fw Hb o qs Hct Hqs St Rep step solve Hst Hso b V0 HR.
    assert (Hqk : forall q, In q qs -> In q (ckids o)) by (intros q; apply Permutation_in, Hqs).
    destruct (fold_o_inv (fun p => fold_o (fun q => fold_o (body fw St (step q) (solve q) p) ord) qs)
      (fun pre b => exists V, Rep b V /\ forall r, inc o r -> prog G ord pre (V0 r) (V r)) ord) with (b := b) as (b' & E & V & R1 & P1).
    - intros pre p post bb E (V & R1 & P1). destruct (ord_split c ord Hc Ho pre p post E) as (S1 & S2 & S3).
      destruct (fold_o_inv (fun q => fold_o (body fw St (step q) (solve q) p) ord)
        (fun dq b => exists V, Rep b V /\ forall q r, In q qs -> inc q r ->
           (In q dq -> prog G ord (pre ++ [p]) (V0 r) (V r)) /\ (~ In q dq -> prog G ord pre (V0 r) (V r))) qs) with (b := bb) as (b' & E' & V' & R2 & P2).
      + intros dq q rq b1 Eq (V1 & R2 & P2). assert (Hq : In q qs) by (rewrite Eq; apply in_app_iff; right; left; reflexivity).
        assert (Nq : ~ In q dq). { assert (N : NoDup qs) by (eapply Permutation_NoDup; [apply Permutation_sym, Hqs|apply (ckids_nodup parts), Hct]).
          rewrite Eq in N. apply NoDup_remove_2 in N. intros X. apply N, in_app_iff. left. exact X. }
        destruct (inner_ok G c ord Hc Ho fw Hb St Rep (step q) (solve q) (inc o) (inc q)) with (pre := pre) (p := p) (post := post) (b := b1) (V := V1)
          as (b2 & V2 & E2 & R3 & O3 & U3); try assumption.
        * intros r Hr. apply (kid_inc o q); auto.
        * intros; apply Hst; assumption.
        * intros; apply Hso; assumption.
        * exists b2. split; [exact E2|]. exists V2. split; [exact R3|]. intros q' r Hq' Hr. assert (Ro : inc o r) by (apply (kid_inc o q'); auto).
          destruct (inc_dec q r) as [Hqr|Hqr].
          -- assert (q' = q) by (apply (kid_unique o q' q r); auto). subst q'. split; [intros _|intros X; exfalso; apply X, in_app_iff; right; left; reflexivity].
             destruct (P2 q r Hq Hr) as [_ P3]. specialize (P3 Nq). apply (prog_step G c ord Hc Ho Hz pre p post (V0 r) (V1 r) (V2 r) E P3).
             ++ intros a Ha Hn. apply O3; [exact Ro|exact Ha|tauto].
             ++ intros a Ha. rewrite (U3 r a Hqr Ha). f_equal. destruct P3 as [_ P4]. apply (P4 p); assumption.
          -- assert (EV : forall x, inc c x -> V2 r x = V1 r x) by (intros x Hx; apply O3; [exact Ro|exact Hx|tauto]).
             assert (PE : forall dn, (forall k, In k dn -> In k ord) -> prog G ord dn (V0 r) (V1 r) -> prog G ord dn (V0 r) (V2 r)).
             { intros dn Hdn [X1 X2]. split.
               - intros k a Hk Ha. rewrite <- (X1 k a Hk Ha). apply lsum_ext. intros j Hj. apply csum_inc. intros x Hx. rewrite EV; [reflexivity|].
                 apply (kid_inc c j); [exact Hc|apply (ord_in c ord Ho), Hdn, Hj|exact Hx].
               - intros k a Hk Hn Ha. rewrite EV; [apply (X2 k); assumption|]. apply (kid_inc c k); [exact Hc|apply (ord_in c ord Ho), Hk|exact Ha]. }
             assert (Nqq : q' <> q) by (intros ->; contradiction). destruct (P2 q' r Hq' Hr) as [P3 P4]. split.
             ++ intros X. apply PE; [intros k Hk; apply in_app_iff in Hk; destruct Hk as [Hk|[<-|[]]]; auto|]. apply P3. apply in_app_iff in X. destruct X as [X|[X|[]]]; [exact X|congruence].
             ++ intros X. apply PE; [exact S3|]. apply P4. intros Y. apply X, in_app_iff. left. exact Y.
      + exists V. split; [exact R1|]. intros q r Hq Hr. split; [intros []|]. intros _. apply P1. apply (kid_inc o q); auto.
      + exists b'. split; [exact E'|]. exists V'. split; [exact R2|]. intros r Hr. destruct (inc_kid o r Hct Hr) as (q & Hq & Hqr).
        assert (Q1 : In q qs) by (eapply Permutation_in; [apply Permutation_sym, Hqs|exact Hq]). apply (P2 q r Q1 Hqr), Q1.
    - exists V0. split; [exact HR|]. intros r Hr. apply (prog_0 G c ord Hc Ho). reflexivity.
    - exists b', V. split; [exact E|]. split; [exact R1|]. intros r a Hr Ha. apply (prog_end G c ord Hc Ho _ _ (P1 r Hr) a Ha).
  Qed.
End P.
