(** * Proofs for C84: runs of processes that meet in collective calls. *)

From Coq Require Import List Arith Bool Lia.
From Verif Require Import ClusterModel IOModel BlockModel Algebra BlasModel HMatModel DistModel SolverModel ProcModel ProcSpec.
Import ListNotations.

Section Proofs.
  Variable K : Coef.
  Notation C := (car K).
  Notation buf := (list C).
  Variable P : nat.

  (** The processes advance together. *)
  Inductive together {A : Type} : nat -> (nat -> prog K A) -> (nat -> A) -> Prop :=
  | TRet : forall ps res, (forall r, r < P -> ps r = Ret (res r)) -> together 0 ps res
  | TColl : forall n ps res (cs : nat -> call K) (ks : nat -> answer K -> prog K A) (an : nat -> answer K), (forall r, r < P -> ps r = Coll (cs r) (ks r)) ->
      (forall r j, r < P -> j < P -> compatible K r (cs r) j (cs j) = true) -> (forall r, r < P -> receive K P r (cs r) (fun j => Some (cs j)) = Some (an r)) ->
      together n (fun r => ks r (an r)) res -> together (S n) ps res.

  Lemma fold_opt_ext : forall S (f g : S -> buf -> option buf) l, (forall x y, In x l -> f x y = g x y) -> forall s, fold_opt K f l s = fold_opt K g l s.
  Proof. intros S f g. induction l as [|a l IH]; intros H s; [reflexivity|]. cbn [fold_opt]. rewrite (H a s) by (left; reflexivity). destruct (g a s); [|reflexivity]. apply IH. intros x y Hx. apply H. right. exact Hx. Qed.
  Lemma map_seq_ext : forall B (f g : nat -> B) a n, (forall j, a <= j < a + n -> f j = g j) -> map f (seq a n) = map g (seq a n).
  Proof. intros B f g a n H. apply map_ext_in. intros j Hj. apply in_seq in Hj. apply H. exact Hj. Qed.

  (** What a process receives depends only on what it needs. *)
  Lemma receive_needs : forall r c cs cs', r < P -> (forall j, j < P -> needs K c r j = true -> cs j = cs' j) -> receive K P r c cs = receive K P r c cs'.
  Proof.
    intros r c cs cs' Hr H. destruct c as [s sc rv cn ds|b n|s sc sd rv rc rd|x|b n root|b n root]; cbn [receive needs] in *.
    - f_equal. apply fold_opt_ext. intros j y Hj. apply in_seq in Hj. destruct (Nat.eqb_spec (nth j cn 0) 0) as [E|E]; [reflexivity|]. rewrite H; [reflexivity|lia|]. apply Nat.ltb_lt. lia.
    - destruct (Nat.eqb_spec n 0) as [E|E]; [reflexivity|]. rewrite (map_seq_ext _ (fun j => sent K (cs j)) (fun j => sent K (cs' j))); [reflexivity|].
      intros j Hj. rewrite H; [reflexivity|lia|]. apply Nat.ltb_lt. lia.
    - f_equal. apply fold_opt_ext. intros j y Hj. apply in_seq in Hj. destruct (Nat.eqb_spec (nth j rc 0) 0) as [E|E]; [reflexivity|]. rewrite H; [reflexivity|lia|]. apply Nat.ltb_lt. lia.
    - rewrite (map_seq_ext _ (fun j => sent_int K (cs j)) (fun j => sent_int K (cs' j))); [reflexivity|]. intros j Hj. rewrite H; [reflexivity|lia|reflexivity].
    - destruct (Nat.ltb_spec root P) as [L|L]; [|reflexivity]. rewrite (H root); [reflexivity|exact L|]. apply Nat.eqb_refl.
    - destruct (Nat.eqb_spec r root) as [E|E]; [|reflexivity]. rewrite (map_seq_ext _ (fun j => sent K (cs j)) (fun j => sent K (cs' j))); [reflexivity|].
      intros j Hj. rewrite H; [reflexivity|lia|reflexivity].
  Qed.

  (** The stages of programs that advance together. *)
  Record stages {A : Type} (n : nat) (ps : nat -> prog K A) (res : nat -> A) (sg : nat -> nat -> prog K A) (cs : nat -> nat -> call K) (ks : nat -> nat -> answer K -> prog K A)
    (an : nat -> nat -> answer K) : Prop := mkStages {
    sg_first : forall r, r < P -> sg 0 r = ps r;
    sg_last : forall r, r < P -> sg n r = Ret (res r);
    sg_call : forall m r, m < n -> r < P -> sg m r = Coll (cs m r) (ks m r);
    sg_comp : forall m r j, m < n -> r < P -> j < P -> compatible K r (cs m r) j (cs m j) = true;
    sg_recv : forall m r, m < n -> r < P -> receive K P r (cs m r) (fun j => Some (cs m j)) = Some (an m r);
    sg_next : forall m r, m < n -> r < P -> sg (S m) r = ks m r (an m r) }.
  Lemma together_stages : forall A n (ps : nat -> prog K A) res, together n ps res -> exists sg cs ks an, stages n ps res sg cs ks an.
  Proof.
    intros A n ps res H. induction H as [ps res H|n ps res cs ks an H1 H2 H3 _ (sg & cs' & ks' & an' & [S1 S2 S3 S4 S5 S6])].
    - exists (fun _ => ps), (fun _ _ => Allgather 0), (fun _ _ _ => Fail), (fun _ _ => AInts []). constructor; intros; try lia; auto.
    - exists (fun m => match m with O => ps | S m' => sg m' end), (fun m => match m with O => cs | S m' => cs' m' end), (fun m => match m with O => ks | S m' => ks' m' end),
        (fun m => match m with O => an | S m' => an' m' end).
      constructor; auto.
      + intros [|m] r Hm Hr; [apply H1; exact Hr|apply S3; [lia|exact Hr]].
      + intros [|m] r j Hm Hr Hj; [apply H2; assumption|apply S4; [lia|exact Hr|exact Hj]].
      + intros [|m] r Hm Hr; [apply H3; exact Hr|apply S5; [lia|exact Hr]].
      + intros [|m] r Hm Hr; [apply S1; exact Hr|apply S6; [lia|exact Hr]].
  Qed.

  Section Inv.
    Context {A : Type}.
    Variables (n : nat) (ps : nat -> prog K A) (res : nat -> A) (sg : nat -> nat -> prog K A) (cs : nat -> nat -> call K) (ks : nat -> nat -> answer K -> prog K A) (an : nat -> nat -> answer K).
    Hypothesis HS : stages n ps res sg cs ks an.

    (** Process [r] has left [m] calls, and made another one if [w]. *)
    Definition place (g : config K A) (r m : nat) (w : bool) : Prop :=
      m <= n /\ if w then m < n /\ states g r = Wait (cs m r) (ks m r) /\ calls g r = map (fun i => cs i r) (seq 0 (S m))
                else states g r = Run (sg m r) /\ calls g r = map (fun i => cs i r) (seq 0 m).
    Definition weight (pos : nat -> nat * bool) (r : nat) : nat := 2 * fst (pos r) + (if snd (pos r) then 1 else 0).
    Fixpoint total (f : nat -> nat) (p : nat) : nat := match p with O => 0 | S p' => total f p' + f p' end.
    Definition inv (k : nat) (g : config K A) : Prop := exists pos, (forall r, r < P -> place g r (fst (pos r)) (snd (pos r))) /\ total (weight pos) P = k.

    Lemma place_calls : forall g r m w, place g r m w -> length (calls g r) = m + if w then 1 else 0.
    Proof. intros g r m w [_ H]. destruct w; [destruct H as (_ & _ & ->)|destruct H as (_ & ->)]; rewrite map_length, seq_length; lia. Qed.
    Lemma place_nth : forall g r m w i, place g r m w -> i < length (calls g r) -> nth_error (calls g r) i = Some (cs i r).
    Proof.
      intros g r m w i H Hi. assert (E : calls g r = map (fun i => cs i r) (seq 0 (length (calls g r)))).
      { rewrite (place_calls g r m w H). destruct H as [_ H]. destruct w; [destruct H as (_ & _ & ->)|destruct H as (_ & ->)]; f_equal; f_equal; lia. }
      rewrite E. rewrite (map_nth_error (fun i => cs i r) i (seq 0 (length (calls g r))) (d:=i)); [reflexivity|]. rewrite (nth_error_nth' _ 0) by (rewrite seq_length; exact Hi). rewrite seq_nth by exact Hi. reflexivity.
    Qed.
    Lemma place_le : forall g r m w, place g r m w -> length (calls g r) <= n.
    Proof. intros g r m w H. rewrite (place_calls g r m w H). destruct H as [H1 H]. destruct w; [destruct H as (H & _); lia|lia]. Qed.
    Lemma total_upd : forall f g p r, r < p -> (forall j, j <> r -> f j = g j) -> total f p + g r = total g p + f r.
    Proof.
      intros f g. induction p as [|p IH]; intros r Hr H; [lia|]. cbn [total]. destruct (Nat.eq_dec r p) as [->|Ne].
      - assert (E : forall q, q <= p -> total f q = total g q).
        { induction q as [|q IHq]; intros Hq; [reflexivity|]. cbn [total]. rewrite IHq by lia. rewrite H by lia. reflexivity. }
        rewrite E by lia. lia.
      - rewrite (H p) by lia. specialize (IH r ltac:(lia) H). lia.
    Qed.
    Lemma place_other : forall g g' r m w, states g r = states g' r -> calls g r = calls g' r -> place g r m w -> place g' r m w.
    Proof. intros g g' r m w E1 E2 H. unfold place in *. rewrite <- E1, <- E2. exact H. Qed.
    (** Moving one process one step further. *)
    Lemma inv_move : forall k g g' r pos m w, r < P -> (forall j, j < P -> place g j (fst (pos j)) (snd (pos j))) -> total (weight pos) P = k ->
      (forall j, j <> r -> states g' j = states g j /\ calls g' j = calls g j) -> place g' r m w -> 2 * m + (if w then 1 else 0) = S (weight pos r) -> inv (S k) g'.
    Proof.
      intros k g g' r pos m w Hr Hp Ht Ho Hm Hw. exists (upd pos r (m, w)). split.
      - intros j Hj. unfold upd. destruct (Nat.eqb_spec j r) as [->|Ne]; [exact Hm|]. destruct (Ho j Ne) as [E1 E2]. eapply place_other; [symmetry; exact E1|symmetry; exact E2|apply Hp; exact Hj].
      - pose proof (total_upd (weight (upd pos r (m, w))) (weight pos) P r Hr) as T.
        assert (E : weight (upd pos r (m, w)) r = S (weight pos r)) by (unfold weight, upd; rewrite Nat.eqb_refl; cbn [fst snd]; unfold weight in Hw; exact Hw).
        rewrite E in T. specialize (T ltac:(intros j Hj; unfold weight, upd; destruct (Nat.eqb_spec j r); [contradiction|reflexivity])). lia.
    Qed.

    Lemma inv_start : inv 0 (start K ps).
    Proof.
      exists (fun _ => (0, false)). split.
      - intros r Hr. split; [cbn [fst]; lia|]. cbn [fst snd start states calls]. rewrite (sg_first _ _ _ _ _ _ _ HS) by exact Hr. split; reflexivity.
      - assert (E : forall p, total (weight (fun _ => (0, false))) p = 0) by (induction p as [|p IH]; [reflexivity|cbn [total]; rewrite IH; reflexivity]). apply E.
    Qed.
    Lemma inv_step : forall k g g', inv k g -> step K P g g' -> inv (S k) g'.
    Proof.
      intros k g g' (pos & Hp & Ht) H. destruct H as [r g' He|r g' Hml Hl].
      - destruct He as [c kk Hr Es]. destruct (Hp r Hr) as [Hle Hpl]. case_eq (pos r). intros m w Epos. rewrite Epos in Hle, Hpl. cbn [fst snd] in Hle, Hpl. destruct w.
        { destruct Hpl as (_ & E & _). rewrite E in Es. discriminate. }
        destruct Hpl as [E Ec]. rewrite E in Es. injection Es as Es. assert (Hm : m < n).
        { destruct (Nat.eq_dec m n) as [->|]; [|lia]. rewrite (sg_last _ _ _ _ _ _ _ HS) in Es by exact Hr. discriminate. }
        rewrite (sg_call _ _ _ _ _ _ _ HS) in Es by assumption. injection Es as E1 E2. subst c kk.
        apply (inv_move k g _ r pos m true Hr Hp Ht); [| |unfold weight; rewrite Epos; cbn [fst snd]; lia].
        + intros j Hj. cbn [states calls]. unfold upd. destruct (Nat.eqb_spec j r); [contradiction|split; reflexivity].
        + split; [lia|]. cbn [states calls]. unfold upd. rewrite Nat.eqb_refl. split; [exact Hm|]. split; [reflexivity|]. rewrite Ec, seq_S, map_app. reflexivity.
      - destruct Hml as (c0' & k0' & Es0 & Hneed). destruct Hl as [c kk Hr Es]. rewrite Es in Es0. injection Es0 as <- <-.
        pose proof (Hp r Hr) as Hpl0. destruct (Hp r Hr) as [Hle Hpl]. case_eq (pos r). intros m w Epos. rewrite Epos in Hle, Hpl, Hpl0. cbn [fst snd] in Hle, Hpl, Hpl0. destruct w.
        2:{ destruct Hpl as (E & _). rewrite E in Es. discriminate. }
        destruct Hpl as (Hm & E & Ec). rewrite E in Es. injection Es as <- <-.
        pose proof (place_calls _ _ _ _ Hpl0) as El. cbn iota in El.
        assert (Er : receive K P r (cs m r) (nth_calls K g (length (calls g r) - 1)) = Some (an m r)).
        { rewrite <- (sg_recv _ _ _ _ _ _ _ HS m r Hm Hr). apply receive_needs; [exact Hr|]. intros j Hj Hn. specialize (Hneed j Hj Hn). unfold nth_calls.
          replace (length (calls g r) - 1) with m by lia. eapply place_nth; [apply Hp; exact Hj|lia]. }
        rewrite Er. apply (inv_move k g _ r pos (S m) false Hr Hp Ht); [| |unfold weight; rewrite Epos; cbn [fst snd]; lia].
        + intros j Hj. cbn [states calls]. unfold upd. destruct (Nat.eqb_spec j r); [contradiction|split; reflexivity].
        + split; [lia|]. cbn [states calls]. unfold upd. rewrite Nat.eqb_refl. split; [|exact Ec]. f_equal. symmetry. apply (sg_next _ _ _ _ _ _ _ HS); assumption.
    Qed.
    Lemma inv_safe : forall k g, inv k g -> ~ faulty K P g.
    Proof.
      intros k g (pos & Hp & _) [(r & Hr & Es)|(r & j & i & c & d & Hr & Hj & Ec & Ed & Hc)].
      - destruct (Hp r Hr) as [Hle Hpl]. destruct (pos r) as [m w]. cbn [fst snd] in *. destruct w; [destruct Hpl as (_ & E & _)|destruct Hpl as (E & _)]; rewrite E in Es; [discriminate|]. injection Es as Es.
        destruct (Nat.eq_dec m n) as [->|]; [rewrite (sg_last _ _ _ _ _ _ _ HS) in Es by exact Hr; discriminate|rewrite (sg_call _ _ _ _ _ _ _ HS) in Es by (try assumption; lia); discriminate].
      - assert (Li : i < length (calls g r)) by (apply nth_error_Some; rewrite Ec; discriminate). assert (Lj : i < length (calls g j)) by (apply nth_error_Some; rewrite Ed; discriminate).
        rewrite (place_nth _ _ _ _ i (Hp r Hr) Li) in Ec. rewrite (place_nth _ _ _ _ i (Hp j Hj) Lj) in Ed. injection Ec as <-. injection Ed as <-.
        pose proof (place_le _ _ _ _ (Hp r Hr)). rewrite (sg_comp _ _ _ _ _ _ _ HS) in Hc by (try assumption; lia). discriminate.
    Qed.
    (** The process that is the furthest behind. *)
    Lemma least : forall (f : nat -> nat) p, 0 < p -> exists r, r < p /\ forall j, j < p -> f r <= f j.
    Proof.
      intros f. induction p as [|p IH]; intros Hp; [lia|]. destruct (Nat.eq_dec p 0) as [->|]; [exists 0; split; [lia|]; intros j Hj; replace j with 0 by lia; lia|].
      destruct (IH ltac:(lia)) as (r & Hr & H). destruct (le_lt_dec (f r) (f p)) as [L|L].
      - exists r. split; [lia|]. intros j Hj. destruct (Nat.eq_dec j p) as [->|]; [exact L|apply H; lia].
      - exists p. split; [lia|]. intros j Hj. destruct (Nat.eq_dec j p) as [->|]; [lia|]. specialize (H j ltac:(lia)). lia.
    Qed.
    Lemma total_le : forall f b p, (forall j, j < p -> f j <= b) -> total f p <= p * b.
    Proof. intros f b. induction p as [|p IH]; intros H; [cbn [total]; lia|]. cbn [total]. specialize (IH ltac:(intros; apply H; lia)). pose proof (H p ltac:(lia)). lia. Qed.
    Lemma total_eq : forall f b p, (forall j, j < p -> f j = b) -> total f p = p * b.
    Proof. intros f b. induction p as [|p IH]; intros H; [reflexivity|]. cbn [total]. rewrite IH by (intros; apply H; lia). rewrite H by lia. lia. Qed.
    Lemma total_lt : forall f b p r, r < p -> (forall j, j < p -> f j <= b) -> f r < b -> total f p < p * b.
    Proof.
      intros f b. induction p as [|p IH]; intros r Hr H L; [lia|]. cbn [total]. pose proof (H p ltac:(lia)). destruct (Nat.eq_dec r p) as [->|].
      - pose proof (total_le f b p ltac:(intros; apply H; lia)). lia.
      - specialize (IH r ltac:(lia) ltac:(intros; apply H; lia) L). lia.
    Qed.
    Lemma weight_le : forall g pos r, place g r (fst (pos r)) (snd (pos r)) -> weight pos r <= 2 * n.
    Proof. intros g pos r [H1 H2]. unfold weight. destruct (snd (pos r)); [destruct H2 as (H2 & _); lia|lia]. Qed.
    Lemma inv_progress : forall k g, inv k g -> (k < P * (2 * n) /\ forced K P g) \/ (k = P * (2 * n) /\ finished K P g res).
    Proof.
      intros k g (pos & Hp & Ht). destruct (Nat.eq_dec P 0) as [E0|N0].
      { right. split; [rewrite <- Ht, E0; reflexivity|]. intros r Hr. lia. }
      destruct (least (weight pos) P ltac:(lia)) as (r & Hr & Hmin). pose proof (weight_le _ _ _ (Hp r Hr)) as Hw. destruct (Nat.eq_dec (weight pos r) (2 * n)) as [Eq|Ne].
      - right. assert (Ea : forall j, j < P -> weight pos j = 2 * n) by (intros j Hj; specialize (Hmin j Hj); pose proof (weight_le _ _ _ (Hp j Hj)); lia).
        split; [rewrite <- Ht; apply total_eq; exact Ea|]. intros j Hj. specialize (Ea j Hj). destruct (Hp j Hj) as [H1 H2]. unfold weight in Ea. destruct (pos j) as [m w]. cbn [fst snd] in *. destruct w; [lia|].
        assert (m = n) as -> by lia. destruct H2 as [H2 _]. rewrite H2. rewrite (sg_last _ _ _ _ _ _ _ HS) by exact Hj. reflexivity.
      - left. split; [rewrite <- Ht; apply (total_lt _ _ _ r Hr); [intros j Hj; apply (weight_le g); apply Hp; exact Hj|lia]|].
        pose proof (Hp r Hr) as Hpl0. destruct (Hp r Hr) as [H1 H2]. case_eq (pos r). intros m w Epos. rewrite Epos in H1, H2, Hpl0. cbn [fst snd] in *.
        assert (Ew : weight pos r = 2 * m + if w then 1 else 0) by (unfold weight; rewrite Epos; reflexivity).
        destruct w.
        + destruct H2 as (Hm & E & Ec). eapply (FLeaves K P g r); [|econstructor; [exact Hr|exact E]]. exists (cs m r), (ks m r). split; [exact E|]. intros j Hj.
          rewrite (place_calls _ _ _ _ Hpl0), (place_calls _ _ _ _ (Hp j Hj)). specialize (Hmin j Hj). unfold weight in Hmin at 2. destruct (snd (pos j)); lia.
        + destruct H2 as (E & Ec). eapply (FEnters K P g r). econstructor; [exact Hr|]. rewrite E. rewrite (sg_call _ _ _ _ _ _ _ HS) by (try assumption; lia). reflexivity.
    Qed.
    Lemma inv_run : forall next, environment K P next -> forall j g g', run K next j g g' -> forall k, inv k g -> inv (k + j) g'.
    Proof.
      intros next [Hstep _] j g g' H. induction H as [g|j g g1 g2 H1 _ IH]; intros k Hk; [rewrite Nat.add_0_r; exact Hk|]. rewrite Nat.add_succ_r. apply (IH (S k)). eapply inv_step; [exact Hk|]. apply Hstep. exact H1.
    Qed.
    Lemma finished_end : forall g g', finished K P g res -> ~ step K P g g'.
    Proof.
      intros g g' Hf H. destruct H as [r g' He|r g' _ Hl].
      - destruct He as [c kk Hr Es]. rewrite (Hf r Hr) in Es. discriminate.
      - destruct Hl as [c kk Hr Es]. rewrite (Hf r Hr) in Es. discriminate.
    Qed.
  End Inv.

  Theorem together_reliable : forall A n (ps : nat -> prog K A) res, together n ps res -> reliable K P ps res.
  Proof.
    intros A n ps res H. destruct (together_stages A n ps res H) as (sg & cs & ks & an & HS). exists (P * (2 * n)). intros next Henv k g Hrun.
    pose proof (inv_run n ps res sg cs ks an HS next Henv k _ _ Hrun 0 (inv_start n ps res sg cs ks an HS)) as Hi. cbn [Nat.add] in Hi. split; [exact (inv_safe n ps res sg cs ks an HS k g Hi)|].
    destruct (inv_progress n ps res sg cs ks an HS k g Hi) as [[Hk Hf]|[Hk Hf]].
    - left. split; [exact Hk|]. apply (proj2 Henv). exact Hf.
    - right. split; [exact Hk|]. split; [exact Hf|]. intros (g' & Hg). apply (finished_end res g g' Hf). apply (proj1 Henv). exact Hg.
  Qed.

  (** ** Composition *)
  Lemma together_ext : forall A n (ps qs : nat -> prog K A) res, (forall r, r < P -> ps r = qs r) -> together n ps res -> together n qs res.
  Proof.
    intros A n ps qs res He H. destruct H as [ps res H|n ps res cs ks an H1 H2 H3 H4].
    - apply TRet. intros r Hr. rewrite <- He by exact Hr. apply H. exact Hr.
    - apply (TColl n qs res cs ks an); [|assumption|assumption|assumption]. intros r Hr. rewrite <- He by exact Hr. apply H1. exact Hr.
  Qed.
  Lemma together_res : forall A n (ps : nat -> prog K A) res res', (forall r, r < P -> res r = res' r) -> together n ps res -> together n ps res'.
  Proof.
    intros A n ps res res' He H. induction H as [ps res H|n ps res cs ks an H1 H2 H3 _ IH].
    - apply TRet. intros r Hr. rewrite <- He by exact Hr. apply H. exact Hr.
    - apply (TColl n ps res' cs ks an); try assumption. apply IH. exact He.
  Qed.
  Lemma together_bind : forall A B n m (ps : nat -> prog K A) xs (f : nat -> A -> prog K B) res, together n ps xs -> together m (fun r => f r (xs r)) res -> together (n + m) (fun r => bind (ps r) (f r)) res.
  Proof.
    intros A B n m ps xs f res H. revert f. induction H as [ps xs H|n ps xs cs ks an H1 H2 H3 _ IH]; intros f Hf.
    - cbn [Nat.add]. eapply together_ext; [|exact Hf]. intros r Hr. cbn beta. rewrite H by exact Hr. reflexivity.
    - cbn [Nat.add]. apply (TColl (n + m) _ res cs (fun r x => bind (ks r x) (f r)) an); [|assumption|assumption|apply IH; exact Hf]. intros r Hr. rewrite H1 by exact Hr. reflexivity.
  Qed.
  Lemma together_lift : forall A B m (o : nat -> option A) xs (f : nat -> A -> prog K B) res, (forall r, r < P -> o r = Some (xs r)) -> together m (fun r => f r (xs r)) res ->
    together m (fun r => bind (lift (o r)) (f r)) res.
  Proof. intros A B m o xs f res Ho Hf. eapply together_ext; [|exact Hf]. intros r Hr. cbn beta. rewrite Ho by exact Hr. reflexivity. Qed.
  Lemma together_last : forall A (o : nat -> option A) res, (forall r, r < P -> o r = Some (res r)) -> together 0 (fun r => lift (o r)) res.
  Proof. intros A o res H. apply TRet. intros r Hr. rewrite H by exact Hr. reflexivity. Qed.
  Lemma together_mpi : forall (c : nat -> call K) (bs : nat -> buf), (forall r j, r < P -> j < P -> compatible K r (c r) j (c j) = true) ->
    (forall r, r < P -> receive K P r (c r) (fun j => Some (c j)) = Some (ABuf (bs r))) -> together 1 (fun r => mpi K (c r)) bs.
  Proof.
    intros c bs H1 H2. apply (TColl 0 _ bs c (fun _ a => match a with ABuf b => Ret b | AInts _ => Fail end) (fun r => ABuf (bs r))); [reflexivity|exact H1|exact H2|]. apply TRet. intros r Hr. reflexivity.
  Qed.
  Lemma together_ints : forall (c : nat -> call K) (l : nat -> list nat), (forall r j, r < P -> j < P -> compatible K r (c r) j (c j) = true) ->
    (forall r, r < P -> receive K P r (c r) (fun j => Some (c j)) = Some (AInts (l r))) -> together 1 (fun r => mpi_ints K (c r)) l.
  Proof.
    intros c l H1 H2. apply (TColl 0 _ l c (fun _ a => match a with AInts b => Ret b | ABuf _ => Fail end) (fun r => AInts (l r))); [reflexivity|exact H1|exact H2|]. apply TRet. intros r Hr. reflexivity.
  Qed.
End Proofs.
