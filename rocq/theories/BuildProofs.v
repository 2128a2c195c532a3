(** * Interleavings of the computation of the blocks. *)

From Coq Require Import List Arith Bool Lia Permutation.
From Verif Require Import ClusterModel IOModel IOSpec BlockModel Algebra BlasModel HMatModel DistModel BuildModel.
Import ListNotations.

Section B.
  Variable K : Coef.
  Notation C := (car K).
  Variable gen : nat -> nat -> C.
  Variable compress : ctree -> ctree -> lrm K.
  Notation exec := (exec K gen compress).
  Notation look := (look K).
  Notation store := (store K).
  Notation mem := (mem K).
  Notation m_heap := (m_heap K).
  Notation m_fp := (m_fp K).
  Notation thread := thread.

  Lemma look_lt : forall h p c, look h p = Some c -> p < length h.
  Proof. intros h p c H. destruct (Nat.lt_ge_cases p (length h)) as [|Hg]; [assumption|]. unfold BuildModel.look in H. rewrite nth_overflow in H by exact Hg. discriminate. Qed.
  Lemma look_store : forall h p q c, p < length h -> look (store h p c) q = if q =? p then Some c else look h q.
  Proof.
    intros h p q c Hp. unfold BuildModel.look, BuildModel.store. destruct (Nat.eqb_spec q p) as [->|Hq].
    - rewrite app_nth2; rewrite firstn_length, Nat.min_l by lia; [|lia]. rewrite Nat.sub_diag. reflexivity.
    - destruct (Nat.lt_ge_cases q p) as [Hl|Hg].
      + rewrite app_nth1 by (rewrite firstn_length; lia). revert p Hp Hq Hl. revert q. induction h as [|a h IH]; intros q p Hp Hq Hl; [cbn in Hp; lia|].
        destruct p as [|p]; [lia|]. destruct q as [|q]; [reflexivity|]. cbn [firstn nth]. apply IH; cbn in Hp; lia.
      + rewrite app_nth2; rewrite firstn_length, Nat.min_l by lia; [|lia]. destruct (q - p) as [|k] eqn:E; [lia|]. cbn [nth].
        clear Hq. assert (q = S p + k) by lia. subst q. clear. revert h. generalize (S p). intros n. induction n as [|n IH]; intros h; [reflexivity|].
        destruct h as [|a h]; [destruct k; reflexivity|]. cbn [skipn Nat.add nth]. apply IH.
  Qed.
  Lemma store_length : forall h p c, p < length h -> length (store h p c) = length h.
  Proof. intros h p c Hp. unfold BuildModel.store. rewrite app_length, firstn_length. cbn [length]. rewrite skipn_length. lia. Qed.

  Definition touched (i : instr) : option nat := match i with ILow p | ICheck p | IFall p | IDense p => Some p | IEnd => None end.
  Definition agree (O : list nat) (m1 m2 : mem) : Prop := forall p, In p O -> look (m_heap m1) p = look (m_heap m2) p.
  Definition within (O : list nat) (prog : list instr) : Prop := forall i p, In i prog -> touched i = Some p -> In p O.

  Lemma on_cell_frame : forall (m1 m2 : mem) p f l' m1', look (m_heap m1) p = look (m_heap m2) p -> on_cell K m1 p f = Some (l', m1') ->
    exists m2' c, on_cell K m2 p f = Some (l', m2') /\ m_fp m1' = m_fp m1 /\ m_fp m2' = m_fp m2 /\ p < length (m_heap m1) /\ p < length (m_heap m2) /\
      length (m_heap m2') = length (m_heap m2) /\
      (forall q, look (m_heap m1') q = if q =? p then Some c else look (m_heap m1) q) /\ (forall q, look (m_heap m2') q = if q =? p then Some c else look (m_heap m2) q).
  Proof.
    intros m1 m2 p f l' m1' E H. unfold on_cell in *. destruct (look (m_heap m1) p) as [c|] eqn:E1; [|discriminate]. rewrite <- E.
    destruct (f c) as [[l c']|] eqn:Ef; [|discriminate]. cbn [fst snd] in *. injection H as <- <-.
    symmetry in E. pose proof (look_lt _ _ _ E). pose proof (look_lt _ _ _ E1).
    eexists. exists c'. split; [reflexivity|]. cbn [BuildModel.m_heap BuildModel.m_fp]. repeat (split; [try reflexivity; try assumption|]).
    - apply store_length. assumption.
    - intros q. apply look_store. assumption.
    - intros q. apply look_store. assumption.
  Qed.

  Lemma exec_frame : forall O i l (m1 m2 : mem) l' m1', (forall p, touched i = Some p -> In p O) -> agree O m1 m2 -> exec i l m1 = Some (l', m1') ->
    exists m2', exec i l m2 = Some (l', m2') /\ agree O m1' m2' /\ m_fp m1 <= m_fp m1' /\ m_fp m1' + m_fp m2 = m_fp m2' + m_fp m1 /\
      length (m_heap m2') = length (m_heap m2) /\ (forall q, ~ In q O -> look (m_heap m2') q = look (m_heap m2) q).
  Proof.
    intros O i l m1 m2 l' m1' Ht Ha H.
    assert (G : forall p f, touched i = Some p -> exec i l m1 = on_cell K m1 p f -> exec i l m2 = on_cell K m2 p f ->
      exists m2', exec i l m2 = Some (l', m2') /\ agree O m1' m2' /\ m_fp m1 <= m_fp m1' /\ m_fp m1' + m_fp m2 = m_fp m2' + m_fp m1 /\
        length (m_heap m2') = length (m_heap m2) /\ (forall q, ~ In q O -> look (m_heap m2') q = look (m_heap m2) q)).
    { intros p f Hp E1 E2. rewrite E1 in H. destruct (on_cell_frame m1 m2 p f l' m1' (Ha p (Ht p Hp)) H) as (m2' & c & F1 & F2 & F3 & _ & _ & F4 & F5 & F6).
      exists m2'. rewrite E2. split; [exact F1|]. split; [|split; [lia|split; [lia|split; [exact F4|]]]].
      - intros q Hq. rewrite F5, F6. destruct (q =? p); [reflexivity|]. apply Ha. exact Hq.
      - intros q Hq. rewrite F6. destruct (Nat.eqb_spec q p) as [->|]; [|reflexivity]. exfalso. apply Hq. apply Ht. exact Hp. }
    destruct i as [p|p|p|p|]; try (eapply (G p); reflexivity).
    cbn in H. injection H as <- <-. eexists. split; [reflexivity|]. cbn. repeat split; try lia. exact Ha.
  Qed.

  (** A whole program, executed without interruption. *)
  Fixpoint execs (prog : list instr) (l : local) (m : mem) : option (local * mem) :=
    match prog with [] => Some (l, m) | i :: prog' => match exec i l m with Some lm => execs prog' (fst lm) (snd lm) | None => None end end.
  Lemma agree_refl : forall O (m : mem), agree O m m.
  Proof. intros O m p _. reflexivity. Qed.
  Lemma execs_frame : forall prog O l (m1 m2 : mem) l' m1', within O prog -> agree O m1 m2 -> execs prog l m1 = Some (l', m1') ->
    exists m2', execs prog l m2 = Some (l', m2') /\ agree O m1' m2' /\ m_fp m1 <= m_fp m1' /\ m_fp m1' + m_fp m2 = m_fp m2' + m_fp m1.
  Proof.
    induction prog as [|i prog IH]; intros O l m1 m2 l' m1' Hw Ha H; cbn [execs] in *.
    - injection H as <- <-. exists m2. split; [reflexivity|]. split; [exact Ha|]. lia.
    - destruct (exec i l m1) as [[l1 m1a]|] eqn:E; [|discriminate]. cbn [fst snd] in H.
      destruct (exec_frame O i l m1 m2 l1 m1a) as (m2a & E2 & A2 & L2 & P2 & _); [intros p Hp; apply (Hw i p); [left; reflexivity|exact Hp]|exact Ha|exact E|].
      rewrite E2. cbn [fst snd]. destruct (IH O l1 m1a m2a l' m1') as (m2' & E3 & A3 & L3 & P3); [intros j p Hj; apply Hw; right; exact Hj|exact A2|exact H|].
      exists m2'. split; [exact E3|]. split; [exact A3|]. lia.
  Qed.

  (** ** The invariant *)
  Fixpoint total (n : nat) (d : nat -> nat) : nat := match n with 0 => 0 | S n' => total n' d + d n' end.
  Lemma total_change : forall n d d' i e, i < n -> d' i + e = d i -> (forall j, j < n -> j <> i -> d' j = d j) -> total n d' + e = total n d.
  Proof.
    induction n as [|n IH]; intros d d' i e Hi Hd Hj; [lia|]. cbn [total]. destruct (Nat.eq_dec i n) as [->|Hne].
    - assert (total n d' = total n d). { clear - Hj. assert (forall k, k <= n -> total k d' = total k d) as Q; [|apply Q; lia].
        induction k as [|k IHk]; intros Hk; [reflexivity|]. cbn [total]. rewrite IHk by lia. rewrite Hj by lia. reflexivity. }
      lia.
    - rewrite (Hj n) by lia. pose proof (IH d d' i e ltac:(lia) Hd ltac:(intros; apply Hj; lia)). lia.
  Qed.
  Lemma total_0 : forall n d, (forall j, j < n -> d j = 0) -> total n d = 0.
  Proof. induction n as [|n IH]; intros d H; [reflexivity|]. cbn [total]. rewrite IH by (intros; apply H; lia). rewrite H by lia. reflexivity. Qed.
  Lemma total_ext : forall n d d', (forall j, j < n -> d j = d' j) -> total n d = total n d'.
  Proof. induction n as [|n IH]; intros d d' H; [reflexivity|]. cbn [total]. rewrite (IH d d') by (intros; apply H; lia). rewrite H by lia. reflexivity. Qed.

  Variable own : nat -> list nat.      (** cells of thread i *)
  Variable F : nat -> option (cell K).   (** their final contents *)
  Variable h0 : heap K.
  Variable TOT : nat.
  Variable n : nat.
  Hypothesis Hdisj : forall i j p, i < n -> j < n -> In p (own i) -> In p (own j) -> i = j.
  Record Inv (s : list thread * mem) : Prop := {
    iv_len : length (fst s) = n;
    iv_heap : length (m_heap (snd s)) = length h0;
    iv_own : forall i t, nth_error (fst s) i = Some t -> within (own i) (th_prog t);
    iv_rest : forall p, (forall i, i < n -> ~ In p (own i)) -> look (m_heap (snd s)) p = look h0 p;
    iv_final : exists d, total n d + m_fp (snd s) = TOT /\
      forall i t, nth_error (fst s) i = Some t -> exists l' m', execs (th_prog t) (th_loc t) (snd s) = Some (l', m') /\
        (forall p, In p (own i) -> look (m_heap m') p = F p) /\ m_fp m' = m_fp (snd s) + d i
  }.
  Lemma nth_error_update : forall ts i t j, i < length ts -> nth_error (update ts i t) j = if j =? i then Some t else nth_error ts j.
  Proof.
    intros ts i t j Hi. unfold update. destruct (Nat.eqb_spec j i) as [->|Hj].
    - rewrite nth_error_app2; rewrite firstn_length, Nat.min_l by lia; [|lia]. rewrite Nat.sub_diag. reflexivity.
    - destruct (Nat.lt_ge_cases j i) as [Hl|Hg].
      + rewrite nth_error_app1 by (rewrite firstn_length; lia). revert i j Hi Hj Hl. induction ts as [|a ts IH]; intros i j Hi Hj Hl; [cbn in Hi; lia|].
        destruct i as [|i]; [lia|]. destruct j as [|j]; [reflexivity|]. cbn [firstn nth_error]. apply IH; cbn in Hi; lia.
      + rewrite nth_error_app2; rewrite firstn_length, Nat.min_l by lia; [|lia]. destruct (j - i) as [|k] eqn:E; [lia|]. cbn [nth_error].
        assert (j = S i + k) by lia. subst j. clear. revert ts. generalize (S i). intros m. induction m as [|m IH]; intros ts; [reflexivity|].
        destruct ts as [|a ts]; [destruct k; reflexivity|]. cbn [skipn Nat.add nth_error]. apply IH.
  Qed.
  Lemma update_length : forall ts i t, i < length ts -> length (update ts i t) = length ts.
  Proof. intros ts i t Hi. unfold update. rewrite app_length, firstn_length. cbn [length]. rewrite skipn_length. lia. Qed.

  Lemma step_inv : forall i s, Inv s -> exists s', step K gen compress i s = Some s' /\ Inv s'.
  Proof.
    intros i [ts m] HI. unfold step. cbn [fst snd]. destruct (nth_error ts i) as [[[|ins rest] l]|] eqn:E; try (eexists; split; [reflexivity|exact HI]).
    destruct HI as [H1 Hh H2 H3 (d & Hd & H4)]. cbn [fst snd] in *.
    assert (Hi : i < n) by (rewrite <- H1; apply nth_error_Some; congruence).
    destruct (H4 i _ E) as (l' & m' & E' & Fp & Ed). cbn [th_prog th_loc execs] in E'.
    destruct (exec ins l m) as [[l1 m1]|] eqn:Ex; [|discriminate]. cbn [fst snd] in *.
    pose proof (H2 i _ E) as Hw. cbn [th_prog] in Hw.
    destruct (exec_frame (own i) ins l m m l1 m1) as (m1' & Ex' & _ & Hle & _ & Hlen & Hout); [intros p Hp; apply (Hw ins p); [left; reflexivity|exact Hp]|apply agree_refl|exact Ex|].
    rewrite Ex in Ex'. injection Ex' as <-.
    eexists. split; [reflexivity|].
    assert (Hfp : m_fp m1 <= m_fp m').
    { destruct (execs_frame rest (own i) l1 m1 m1 l' m') as (_ & _ & _ & Q & _); [intros j p Hj; apply Hw; right; exact Hj|apply agree_refl|exact E'|exact Q]. }
    split; cbn [fst snd].
    - rewrite update_length by lia. exact H1.
    - rewrite Hlen. exact Hh.
    - intros j t Hj. rewrite nth_error_update in Hj by lia. destruct (Nat.eqb_spec j i) as [->|Hji]; [|apply H2; exact Hj].
      injection Hj as <-. cbn [th_prog]. intros k p Hk. apply Hw. right. exact Hk.
    - intros p Hp. rewrite Hout by (apply Hp; exact Hi). apply H3. exact Hp.
    - exists (fun j => if j =? i then m_fp m' - m_fp m1 else d j). split.
      + pose proof (total_change n d (fun j => if j =? i then m_fp m' - m_fp m1 else d j) i (m_fp m1 - m_fp m) Hi) as Q.
        cbv beta in Q. rewrite Nat.eqb_refl in Q. specialize (Q ltac:(lia)).
        enough (total n (fun j => if j =? i then m_fp m' - m_fp m1 else d j) + (m_fp m1 - m_fp m) = total n d) by lia. apply Q.
        intros j Hj Hji. destruct (Nat.eqb_spec j i); [contradiction|reflexivity].
      + intros j t Hj. rewrite nth_error_update in Hj by lia. destruct (Nat.eqb_spec j i) as [->|Hji].
        * injection Hj as <-. cbn [th_prog th_loc]. exists l', m'. split; [exact E'|]. split; [exact Fp|]. lia.
        * destruct (H4 j t Hj) as (lj & mj & Ej & Fj & Dj).
          assert (Hjn : j < n) by (rewrite <- H1; apply nth_error_Some; congruence).
          destruct (execs_frame (th_prog t) (own j) (th_loc t) m m1 lj mj (H2 j t Hj)) as (mj' & E2 & A2 & L2 & P2); [|exact Ej|].
          { intros p Hp. symmetry. apply Hout. intros Hpi. apply Hji. exact (Hdisj j i p Hjn Hi Hp Hpi). }
          exists lj, mj'. split; [exact E2|]. split; [intros p Hp; rewrite <- (A2 p Hp); apply Fj; exact Hp|]. lia.
  Qed.
  Lemma run_inv : forall sched s, Inv s -> exists s', run K gen compress sched s = Some s' /\ Inv s'.
  Proof.
    induction sched as [|i sched IH]; intros s HI; cbn [run]; [exists s; split; [reflexivity|exact HI]|].
    destruct (step_inv i s HI) as (s1 & -> & H1). apply IH. exact H1.
  Qed.
  Lemma inv_finished : forall s, Inv s -> finished (fst s) = true ->
    m_fp (snd s) = TOT /\ (forall i p, i < n -> In p (own i) -> look (m_heap (snd s)) p = F p).
  Proof.
    intros [ts m] [H1 _ H2 H3 (d & Hd & H4)] Hf. cbn [fst snd] in *. unfold finished in Hf. rewrite forallb_forall in Hf.
    assert (G : forall i t, nth_error ts i = Some t -> d i = 0 /\ forall p, In p (own i) -> look (m_heap m) p = F p).
    { intros i t E. destruct (H4 i t E) as (l' & m' & E' & Fp & Ed). specialize (Hf t (nth_error_In _ _ E)). destruct (th_prog t); [|discriminate].
      cbn [execs] in E'. injection E' as <- <-. split; [lia|exact Fp]. }
    split.
    - rewrite total_0 in Hd; [exact Hd|]. intros j Hj. destruct (nth_error ts j) as [t|] eqn:E; [exact (proj1 (G j t E))|]. apply nth_error_None in E. lia.
    - intros i p Hi Hp. destruct (nth_error ts i) as [t|] eqn:E; [exact (proj2 (G i t E) p Hp)|]. apply nth_error_None in E. lia.
  Qed.
End B.

(** ** Every program terminates normally *)
Section P.
  Variable K : Coef.
  Notation C := (car K).
  Variable gen : nat -> nat -> C.
  Variable compress : ctree -> ctree -> lrm K.
  Notation look := (look K).
  Notation mem := (mem K).
  Notation m_heap := (m_heap K).
  Notation m_fp := (m_fp K).
  Notation execs := (execs K gen compress).

  Definition rej (c : cell K) : bool := rejected K (cl_t K c) (cl_s K c) (compress (cl_t K c) (cl_s K c)).
  Definition low_final (c : cell K) : cell K :=
    if rej c then set_dense K gen (set_low K c None (KLow))
    else set_low K c (Some (compress (cl_t K c) (cl_s K c))) (KLow).
  Definition rej_at (m : mem) (p : nat) : bool := match look (m_heap m) p with Some c => rej c | None => false end.
  Fixpoint cnt (f : nat -> bool) (l : list nat) : nat := match l with [] => 0 | x :: l' => (if f x then 1 else 0) + cnt f l' end.
  Lemma cnt_app : forall f l l', cnt f (l ++ l') = cnt f l + cnt f l'.
  Proof. induction l as [|x l IH]; intros l'; cbn [app cnt]; [reflexivity|]. rewrite IH. lia. Qed.
  Lemma cnt_ext : forall f g l, (forall x, In x l -> f x = g x) -> cnt f l = cnt g l.
  Proof. induction l as [|x l IH]; intros H; cbn [cnt]; [reflexivity|]. rewrite (H x) by (left; reflexivity). rewrite IH by (intros; apply H; right; assumption). reflexivity. Qed.
  Lemma cnt_perm : forall f l l', Permutation l l' -> cnt f l = cnt f l'.
  Proof. intros f l l' P. induction P; cbn [cnt]; lia. Qed.

  Lemma execs_app : forall p1 p2 l m l1 m1, execs p1 l m = Some (l1, m1) -> execs (p1 ++ p2) l m = execs p2 l1 m1.
  Proof.
    induction p1 as [|i p1 IH]; intros p2 l m l1 m1 H; cbn [BuildProofs.execs app] in *; [injection H as <- <-; reflexivity|].
    destruct (exec K gen compress i l m) as [[l' m']|]; [|discriminate]. apply IH. exact H.
  Qed.
  Definition inb (p : nat) (l : list nat) : bool := existsb (Nat.eqb p) l.
  Lemma inb_In : forall p l, inb p l = true <-> In p l.
  Proof. intros p l. unfold inb. rewrite existsb_exists. split; [intros (x & Hx & E); apply Nat.eqb_eq in E; subst; exact Hx|intros H; exists p; split; [exact H|apply Nat.eqb_refl]]. Qed.
  Lemma inb_not : forall p l, ~ In p l -> inb p l = false.
  Proof. intros p l H. destruct (inb p l) eqn:E; [|reflexivity]. exfalso. apply H. apply inb_In. exact E. Qed.

  Lemma one_low : forall p l (m : mem) c, look (m_heap m) p = Some c -> exists l' m',
    execs [ILow p; ICheck p; IFall p] l m = Some (l', m') /\ l_fp l' = l_fp l + (if rej c then 1 else 0) /\ m_fp m' = m_fp m /\
    (forall q, look (m_heap m') q = if q =? p then Some (low_final c) else look (m_heap m) q).
  Proof.
    intros p l m c Hc. pose proof (look_lt _ _ _ _ Hc) as Hp.
    cbn [BuildProofs.execs exec]. unfold on_cell at 1. rewrite Hc. cbn [fst snd].
    unfold on_cell at 1. cbn [BuildModel.m_heap]. rewrite look_store by exact Hp. rewrite Nat.eqb_refl. cbn [fst snd set_low cl_low cl_t cl_s].
    unfold low_final, rej. destruct (rejected K (cl_t K c) (cl_s K c) (compress (cl_t K c) (cl_s K c))); cbn [fst snd].
    - unfold on_cell. cbn [BuildModel.m_heap]. rewrite look_store by (rewrite store_length; exact Hp). rewrite Nat.eqb_refl. cbn [l_rej fst snd].
      eexists. eexists. split; [reflexivity|]. cbn [l_fp BuildModel.m_fp BuildModel.m_heap]. split; [reflexivity|]. split; [reflexivity|].
      intros q. rewrite !look_store by (rewrite ?store_length; rewrite ?store_length; exact Hp). destruct (q =? p); reflexivity.
    - unfold on_cell. cbn [BuildModel.m_heap]. rewrite look_store by (rewrite store_length; exact Hp). rewrite Nat.eqb_refl. cbn [l_rej fst snd].
      eexists. eexists. split; [reflexivity|]. cbn [l_fp BuildModel.m_fp BuildModel.m_heap]. split; [lia|]. split; [reflexivity|].
      intros q. rewrite !look_store by (rewrite ?store_length; rewrite ?store_length; exact Hp). destruct (q =? p); reflexivity.
  Qed.

  Lemma all_low : forall adm l (m : mem), NoDup adm -> (forall p, In p adm -> look (m_heap m) p <> None) -> exists l' m',
    execs (flat_map (fun p => [ILow p; ICheck p; IFall p]) adm) l m = Some (l', m') /\ l_fp l' = l_fp l + cnt (rej_at m) adm /\ m_fp m' = m_fp m /\
    (forall q, look (m_heap m') q = if inb q adm then option_map low_final (look (m_heap m) q) else look (m_heap m) q).
  Proof.
    induction adm as [|p adm IH]; intros l m Hnd Ha.
    - exists l, m. cbn. split; [reflexivity|]. split; [lia|]. split; reflexivity.
    - inversion Hnd as [|? ? Hn Hnd']; subst. destruct (look (m_heap m) p) as [c|] eqn:Ec; [|exfalso; apply (Ha p); [left; reflexivity|exact Ec]].
      destruct (one_low p l m c Ec) as (l1 & m1 & E1 & F1 & G1 & H1).
      assert (Hlk : forall q, In q adm -> look (m_heap m1) q = look (m_heap m) q).
      { intros q Hq. rewrite H1. destruct (Nat.eqb_spec q p) as [->|]; [contradiction|reflexivity]. }
      destruct (IH l1 m1 Hnd') as (l2 & m2 & E2 & F2 & G2 & H2).
      { intros q Hq. rewrite Hlk by exact Hq. apply Ha. right. exact Hq. }
      exists l2, m2. cbn [flat_map]. rewrite (execs_app _ _ _ _ _ _ E1). split; [exact E2|]. cbn [cnt]. split; [|split; [congruence|]].
      + rewrite F2, F1. unfold rej_at at 2. rewrite Ec. rewrite (cnt_ext (rej_at m1) (rej_at m)); [lia|]. intros q Hq. unfold rej_at. rewrite Hlk by exact Hq. reflexivity.
      + intros q. rewrite H2. cbn [inb existsb]. fold (inb q adm). rewrite !H1. destruct (Nat.eqb_spec q p) as [->|Hq].
        * rewrite inb_not by exact Hn. cbn. rewrite Ec. reflexivity.
        * cbn [orb]. reflexivity.
  Qed.
  Lemma all_dense : forall dns l (m : mem), NoDup dns -> (forall p, In p dns -> look (m_heap m) p <> None) -> exists m',
    execs (map IDense dns) l m = Some (l, m') /\ m_fp m' = m_fp m /\
    (forall q, look (m_heap m') q = if inb q dns then option_map (set_dense K gen) (look (m_heap m) q) else look (m_heap m) q).
  Proof.
    induction dns as [|p dns IH]; intros l m Hnd Ha.
    - exists m. cbn. split; [reflexivity|]. split; reflexivity.
    - inversion Hnd as [|? ? Hn Hnd']; subst. destruct (look (m_heap m) p) as [c|] eqn:Ec; [|exfalso; apply (Ha p); [left; reflexivity|exact Ec]].
      pose proof (look_lt _ _ _ _ Ec) as Hp.
      cbn [map BuildProofs.execs exec]. unfold on_cell at 1. rewrite Ec. cbn [fst snd].
      set (m1 := mkMem K _ _).
      assert (H1 : forall q, look (m_heap m1) q = if q =? p then Some (set_dense K gen c) else look (m_heap m) q).
      { intros q. unfold m1. cbn [BuildModel.m_heap]. apply look_store. exact Hp. }
      destruct (IH l m1 Hnd') as (m2 & E2 & G2 & H2).
      { intros q Hq. rewrite H1. destruct (q =? p); [discriminate|]. apply Ha. right. exact Hq. }
      exists m2. split; [exact E2|]. split; [rewrite G2; reflexivity|].
      intros q. rewrite H2, !H1. cbn [inb existsb]. fold (inb q dns). destruct (Nat.eqb_spec q p) as [->|Hq].
      * rewrite inb_not by exact Hn. cbn. rewrite Ec. reflexivity.
      * reflexivity.
  Qed.

  Definition goal_cell (adm : list nat) (h : heap K) (p : nat) : option (cell K) :=
    option_map (if inb p adm then low_final else set_dense K gen) (look h p).

  Lemma program_result : forall custom share (m : mem), NoDup (fst share ++ snd share) ->
    (forall p, In p (fst share ++ snd share) -> look (m_heap m) p <> None) -> exists l' m',
    execs (program custom share) (mkLocal false 0) m = Some (l', m') /\
    m_fp m' = m_fp m + cnt (rej_at m) (fst share) /\
    (forall p, In p (fst share ++ (if custom then [] else snd share)) -> look (m_heap m') p = goal_cell (fst share) (m_heap m) p).
  Proof.
    intros custom [adm dns] m Hnd Ha. cbn [fst snd] in *.
    assert (Hnd1 : NoDup adm /\ NoDup dns /\ forall p, In p adm -> In p dns -> False).
    { clear Ha. induction adm as [|x adm IH]; cbn [app] in Hnd; [split; [constructor|split; [exact Hnd|intros p []]]|].
      inversion Hnd as [|? ? Hn Hnd']; subst. destruct (IH Hnd') as (A1 & A2 & A3). split; [constructor; [intros Hx; apply Hn, in_or_app; left; exact Hx|exact A1]|].
      split; [exact A2|]. intros p [->|Hp] Hd; [apply Hn, in_or_app; right; exact Hd|exact (A3 p Hp Hd)]. }
    destruct Hnd1 as (N1 & N2 & N3).
    destruct (all_low adm (mkLocal false 0) m N1) as (l1 & m1 & E1 & F1 & G1 & H1); [intros p Hp; apply Ha, in_or_app; left; exact Hp|].
    unfold program. cbn [fst snd]. destruct custom.
    - exists l1, (mkMem K (m_heap m1) (m_fp m1 + l_fp l1)). rewrite (execs_app _ _ _ _ _ _ E1). split; [reflexivity|]. cbn [BuildModel.m_fp BuildModel.m_heap]. split.
      + rewrite G1, F1. reflexivity.
      + intros p Hp. rewrite app_nil_r in Hp. rewrite H1. unfold goal_cell. rewrite (proj2 (inb_In p adm) Hp). reflexivity.
    - destruct (all_dense dns l1 m1 N2) as (m2 & E2 & G2 & H2).
      { intros p Hp. rewrite H1. rewrite inb_not by (intros Hq; exact (N3 p Hq Hp)). apply Ha, in_or_app. right. exact Hp. }
      exists l1, (mkMem K (m_heap m2) (m_fp m2 + l_fp l1)). rewrite (execs_app _ _ _ _ _ _ E1), (execs_app _ _ _ _ _ _ E2). split; [reflexivity|]. cbn [BuildModel.m_fp BuildModel.m_heap]. split.
      + rewrite G2, G1, F1. reflexivity.
      + intros p Hp. rewrite H2, !H1. unfold goal_cell. apply in_app_or in Hp. destruct Hp as [Hp|Hp].
        * rewrite (proj2 (inb_In p adm) Hp). rewrite inb_not by (intros Hq; exact (N3 p Hp Hq)). reflexivity.
        * rewrite (proj2 (inb_In p dns) Hp). rewrite inb_not by (intros Hq; exact (N3 p Hq Hp)). reflexivity.
  Qed.
  Lemma program_within : forall (custom : bool) (share : list nat * list nat), within (fst share ++ (if custom then [] else snd share)) (program custom share).
  Proof.
    intros custom [adm dns] i p Hi Hp. cbn [fst snd] in *. unfold program in Hi. cbn [fst snd] in Hi. apply in_or_app.
    apply in_app_or in Hi. destruct Hi as [Hi|Hi].
    - left. apply in_flat_map in Hi. destruct Hi as (x & Hx & Hi). destruct Hi as [<-|[<-|[<-|[]]]]; cbn in Hp; injection Hp as <-; exact Hx.
    - apply in_app_or in Hi. destruct Hi as [Hi|[<-|[]]]; [|discriminate]. destruct custom; [destruct Hi|]. right.
      apply in_map_iff in Hi. destruct Hi as (x & <- & Hx). cbn in Hp. injection Hp as <-. exact Hx.
  Qed.

  (** ** All the threads *)
  Lemma concat_disj : forall (LL : list (list nat)) i j a b p, NoDup (concat LL) -> nth_error LL i = Some a -> nth_error LL j = Some b -> In p a -> In p b -> i = j.
  Proof.
    assert (D : forall (a b : list nat) p, NoDup (a ++ b) -> In p a -> In p b -> False).
    { induction a as [|x a IH]; intros b p Hn Ha Hb; [destruct Ha|]. cbn [app] in Hn. inversion Hn; subst. destruct Ha as [->|Ha]; [apply H1, in_or_app; right; exact Hb|exact (IH b p H2 Ha Hb)]. }
    assert (I : forall (LL : list (list nat)) i a p, nth_error LL i = Some a -> In p a -> In p (concat LL)).
    { intros LL i a p E Hp. apply in_concat. exists a. split; [exact (nth_error_In _ _ E)|exact Hp]. }
    induction LL as [|x LL IH]; intros i j a b p Hn Hi Hj Ha Hb; [destruct i; discriminate|]. cbn [concat] in Hn.
    destruct i as [|i], j as [|j]; cbn [nth_error] in *; [reflexivity| | |].
    - injection Hi as ->. exfalso. exact (D _ _ p Hn Ha (I _ _ _ _ Hj Hb)).
    - injection Hj as ->. exfalso. exact (D _ _ p Hn Hb (I _ _ _ _ Hi Ha)).
    - f_equal. apply (IH i j a b p); [|assumption..]. clear - Hn. induction x as [|y x IHx]; [exact Hn|]. cbn [app] in Hn. inversion Hn; subst. auto.
  Qed.
  Lemma app_disj : forall (a b : list nat) p, NoDup (a ++ b) -> In p a -> In p b -> False.
  Proof. induction a as [|x a IH]; intros b p Hn Ha Hb; [destruct Ha|]. cbn [app] in Hn. inversion Hn; subst. destruct Ha as [->|Ha]; [apply H1, in_or_app; right; exact Hb|exact (IH b p H2 Ha Hb)]. Qed.
  Lemma nodup_app : forall (a b : list nat), NoDup (a ++ b) -> NoDup a /\ NoDup b.
  Proof.
    induction a as [|x a IH]; intros b Hn; [split; [constructor|exact Hn]|]. cbn [app] in Hn. inversion Hn; subst. destruct (IH b H2) as [A1 A2].
    split; [constructor; [intros Hx; apply H1, in_or_app; left; exact Hx|exact A1]|exact A2].
  Qed.
  Lemma concat_nodup : forall (LL : list (list nat)) i a, NoDup (concat LL) -> nth_error LL i = Some a -> NoDup a.
  Proof.
    induction LL as [|x LL IH]; intros i a Hn Hi; [destruct i; discriminate|]. cbn [concat] in Hn. destruct (nodup_app _ _ Hn) as [A1 A2].
    destruct i as [|i]; cbn [nth_error] in Hi; [injection Hi as <-; exact A1|exact (IH i a A2 Hi)].
  Qed.
  Definition both (s : list nat * list nat) : list nat := fst s ++ snd s.
  Lemma both_perm : forall shares : list (list nat * list nat), Permutation (concat (map both shares)) (concat (map fst shares) ++ concat (map snd shares)).
  Proof.
    induction shares as [|[a b] shares IH]; cbn [map concat app]; [constructor|]. unfold both at 1. cbn [fst snd].
    rewrite <- !app_assoc. apply Permutation_app_head. rewrite Permutation_app_swap_app. apply Permutation_app_head. exact IH.
  Qed.

  Notation share_at shares i := (nth i shares ([], [])).
  Lemma total_cnt : forall f (shares : list (list nat * list nat)), total (length shares) (fun i => cnt f (fst (share_at shares i))) = cnt f (concat (map fst shares)).
  Proof.
    intros f shares. induction shares as [|s shares IH] using rev_ind; [reflexivity|]. rewrite app_length, Nat.add_1_r. cbn [total].
    rewrite map_app, concat_app, cnt_app. cbn [map concat]. rewrite app_nil_r.
    rewrite (total_ext _ _ (fun i => cnt f (fst (share_at shares i)))); [|intros j Hj; rewrite app_nth1 by exact Hj; reflexivity].
    rewrite IH. rewrite app_nth2 by lia. rewrite Nat.sub_diag. reflexivity.
  Qed.

  Theorem all_threads : forall custom shares sched (m : mem), NoDup (concat (map fst shares) ++ concat (map snd shares)) ->
    (forall p, In p (concat (map fst shares) ++ concat (map snd shares)) -> look (m_heap m) p <> None) ->
    exists ts m', run K gen compress sched (map (fun s => mkThread (program custom s) (mkLocal false 0)) shares, m) = Some (ts, m') /\
      length ts = length shares /\ length (m_heap m') = length (m_heap m) /\
      (forall p, ~ In p (concat (map fst shares)) -> (custom = false -> ~ In p (concat (map snd shares))) -> look (m_heap m') p = look (m_heap m) p) /\
      (finished ts = true -> m_fp m' = m_fp m + cnt (rej_at m) (concat (map fst shares)) /\
         (forall p, In p (concat (map fst shares)) -> look (m_heap m') p = option_map low_final (look (m_heap m) p)) /\
         (custom = false -> forall p, In p (concat (map snd shares)) -> look (m_heap m') p = option_map (set_dense K gen) (look (m_heap m) p))).
  Proof.
    intros custom shares sched m Hnd Ha.
    set (own := fun i => fst (share_at shares i) ++ (if custom then [] else snd (share_at shares i))).
    set (adm := concat (map fst shares)) in *. set (dns := concat (map snd shares)) in *.
    assert (HndB : NoDup (concat (map both shares))) by (apply (Permutation_NoDup (Permutation_sym (both_perm shares))); exact Hnd).
    assert (Hsh : forall i, i < length shares -> nth_error (map both shares) i = Some (both (share_at shares i))).
    { intros i Hi. apply map_nth_error. apply nth_error_nth'. exact Hi. }
    assert (Hown : forall i p, In p (own i) -> In p (both (share_at shares i))).
    { intros i p Hp. unfold own in Hp. unfold both. apply in_app_or in Hp. apply in_or_app. destruct Hp as [Hp|Hp]; [left; exact Hp|]. destruct custom; [destruct Hp|right; exact Hp]. }
    assert (Hdisj : forall i j p, i < length shares -> j < length shares -> In p (own i) -> In p (own j) -> i = j).
    { intros i j p Hi Hj Hpi Hpj. exact (concat_disj _ i j _ _ p HndB (Hsh i Hi) (Hsh j Hj) (Hown _ _ Hpi) (Hown _ _ Hpj)). }
    assert (Hin1 : forall i p, i < length shares -> In p (fst (share_at shares i)) -> In p adm).
    { intros i p Hi Hp. apply in_concat. exists (fst (share_at shares i)). split; [apply in_map, nth_In; exact Hi|exact Hp]. }
    assert (Hin2 : forall i p, i < length shares -> In p (snd (share_at shares i)) -> In p dns).
    { intros i p Hi Hp. apply in_concat. exists (snd (share_at shares i)). split; [apply in_map, nth_In; exact Hi|exact Hp]. }
    assert (Hex : forall (g : list nat * list nat -> list nat) p, In p (concat (map g shares)) -> exists i : nat, i < length shares /\ In p (g (share_at shares i))).
    { intros g p Hp. apply in_concat in Hp. destruct Hp as (x & Hx & Hp). apply in_map_iff in Hx. destruct Hx as (s & <- & Hs).
      destruct (In_nth _ _ ([], []) Hs) as (i & Hi & E). exists i. rewrite E. split; assumption. }
    assert (Had : forall p, In p adm -> In p dns -> False).
    { intros p. exact (app_disj adm dns p Hnd). }
    assert (HI : Inv K gen compress own (goal_cell adm (m_heap m)) (m_heap m) (m_fp m + cnt (rej_at m) adm) (length shares)
      (map (fun s => mkThread (program custom s) (mkLocal false 0)) shares, m)).
    { split; cbn [fst snd].
      - apply map_length.
      - reflexivity.
      - intros i t E. rewrite nth_error_map in E. destruct (nth_error shares i) as [s|] eqn:Es; [|discriminate]. injection E as <-. cbn [th_prog].
        unfold own. rewrite (nth_error_nth _ _ ([], []) Es). apply program_within.
      - reflexivity.
      - exists (fun i => cnt (rej_at m) (fst (share_at shares i))). split; [rewrite total_cnt; fold adm; lia|].
        intros i t E. rewrite nth_error_map in E. destruct (nth_error shares i) as [s|] eqn:Es; [|discriminate]. injection E as <-. cbn [th_prog th_loc].
        assert (Hi : i < length shares) by (apply nth_error_Some; congruence).
        pose proof (nth_error_nth _ _ ([], []) Es) as En.
        destruct (program_result custom s m) as (l' & m' & E1 & E2 & E3).
        { apply (concat_nodup _ i (both s) HndB). rewrite (Hsh i Hi), En. reflexivity. }
        { intros p Hp. apply Ha. apply in_or_app. apply in_app_or in Hp. rewrite <- En in Hp. destruct Hp as [Hp|Hp]; [left; exact (Hin1 i p Hi Hp)|right; exact (Hin2 i p Hi Hp)]. }
        exists l', m'. split; [exact E1|]. unfold own. rewrite En. split; [|exact E2].
        intros p Hp. rewrite (E3 p Hp). unfold goal_cell.
        destruct (inb p (fst s)) eqn:Ei.
        + assert (In p adm) by (apply (Hin1 i p Hi); rewrite En; apply inb_In; exact Ei). rewrite (proj2 (inb_In p adm) H). reflexivity.
        + apply in_app_or in Hp. destruct Hp as [Hp|Hp]; [rewrite (proj2 (inb_In p (fst s)) Hp) in Ei; discriminate|].
          destruct custom; [destruct Hp|]. rewrite inb_not; [reflexivity|]. intros Hq. apply (Had p Hq). apply (Hin2 i p Hi). rewrite En. exact Hp. }
    destruct (run_inv K gen compress own _ (m_heap m) _ (length shares) Hdisj sched _ HI) as ([ts m'] & E & HI').
    exists ts, m'. split; [exact E|].
    split; [exact (iv_len _ _ _ _ _ _ _ _ _ HI')|]. split; [exact (iv_heap _ _ _ _ _ _ _ _ _ HI')|]. split.
    - intros p H1 H2. apply (iv_rest _ _ _ _ _ _ _ _ _ HI'). intros i Hi Hp. unfold own in Hp. apply in_app_or in Hp.
      destruct Hp as [Hp|Hp]; [exact (H1 (Hin1 i p Hi Hp))|]. destruct custom; [destruct Hp|]. exact (H2 eq_refl (Hin2 i p Hi Hp)).
    - intros Hf. destruct (inv_finished K gen compress own _ (m_heap m) _ (length shares) _ HI' Hf) as [Q1 Q2]. cbn [snd] in Q1, Q2.
      split; [exact Q1|]. split.
      + intros p Hp. destruct (Hex fst p Hp) as (i & Hi & Hpi). rewrite (Q2 i p Hi); [|unfold own; apply in_or_app; left; exact Hpi].
        unfold goal_cell. rewrite (proj2 (inb_In p adm) Hp). reflexivity.
      + intros -> p Hp. destruct (Hex snd p Hp) as (i & Hi & Hpi). rewrite (Q2 i p Hi); [|unfold own; apply in_or_app; right; exact Hpi].
        unfold goal_cell. rewrite inb_not by (intros Hq; exact (Had p Hq Hp)). reflexivity.
  Qed.

  (** ** Enough steps *)
  Definition prog_len (custom : bool) (s : list nat * list nat) : nat := length (program custom s).
  Lemma run_left : forall sched ts (m : mem) ts' m', run K gen compress sched (ts, m) = Some (ts', m') -> length ts' = length ts /\
    forall i t, nth_error ts' i = Some t -> exists t0, nth_error ts i = Some t0 /\ length (th_prog t) = length (th_prog t0) - count_occ Nat.eq_dec sched i.
  Proof.
    induction sched as [|k sched IH]; intros ts m ts' m' H; cbn [run] in H.
    - injection H as <- <-. split; [reflexivity|]. intros i t E. exists t. cbn. split; [exact E|lia].
    - unfold step in H. cbn [fst snd] in H. destruct (nth_error ts k) as [[[|ins rest] l]|] eqn:Ek.
      + destruct (IH _ _ _ _ H) as [A1 A2]. split; [exact A1|]. intros i t E. destruct (A2 i t E) as (t0 & E0 & L0). exists t0. split; [exact E0|].
        cbn [count_occ]. destruct (Nat.eq_dec k i) as [->|]; [|exact L0]. rewrite Ek in E0. injection E0 as <-. cbn [th_prog length] in *. lia.
      + destruct (exec K gen compress ins l m) as [[l1 m1]|]; [|discriminate]. cbn [fst snd] in H.
        assert (Hk : k < length ts) by (apply nth_error_Some; congruence).
        destruct (IH _ _ _ _ H) as [A1 A2]. rewrite update_length in A1 by exact Hk. split; [exact A1|]. intros i t E. destruct (A2 i t E) as (t0 & E0 & L0).
        rewrite nth_error_update in E0 by exact Hk. cbn [count_occ]. destruct (Nat.eqb_spec i k) as [->|Hik].
        * injection E0 as <-. exists (mkThread (ins :: rest) l). split; [exact Ek|]. cbn [th_prog length] in *. destruct (Nat.eq_dec k k); [|contradiction]. lia.
        * exists t0. split; [exact E0|]. destruct (Nat.eq_dec k i) as [->|]; [contradiction|exact L0].
      + destruct (IH _ _ _ _ H) as [A1 A2]. split; [exact A1|]. intros i t E. destruct (A2 i t E) as (t0 & E0 & L0). exists t0. split; [exact E0|].
        cbn [count_occ]. destruct (Nat.eq_dec k i) as [->|]; [|exact L0]. rewrite Ek in E0. discriminate.
  Qed.
  Lemma program_length : forall custom s, length (program custom s) = 3 * length (fst s) + (if custom then 0 else length (snd s)) + 1.
  Proof.
    intros custom [a b]. unfold program. cbn [fst snd]. rewrite !app_length. assert (length (flat_map (fun p => [ILow p; ICheck p; IFall p]) a) = 3 * length a).
    { induction a as [|x a IH]; [reflexivity|]. cbn [flat_map app length]. rewrite IH. lia. }
    rewrite H. destruct custom; cbn [length]; rewrite ?map_length; lia.
  Qed.
End P.
