(** * C34, C47: the matrix container and its memory. *)

From Coq Require Import List Arith Bool Lia.
From Verif Require Import OwnModel OwnSpec OwnProofs OwnStep OwnValues.
Import ListNotations.

(** C34.  Every history that respects the contract runs without undefined behaviour (no double free, no access to a freed
    or null buffer, no access out of bounds) and at its end every allocated block has exactly one owner and no freed
    block has any. *)
Theorem C34_safe_histories :
  forall (T : Type) (l : list (op T)), respects (init T) l -> exists s, run T (init T) l = Some s /\ one_owner s.
Proof. intros T l H. destruct (run_ok l (init T) inv_init H) as (s & E & HI). exists s. split; [exact E|exact (proj1 HI)]. Qed.
Print Assumptions C34_safe_histories.

(** C34.  When all matrices are destroyed and the surrounding code has freed what it owns, nothing is left. *)
Theorem C34_no_leak :
  forall (T : Type) (l : list (op T)) s, respects (init T) l -> run T (init T) l = Some s ->
    (forall i m, ~ is_obj s i m) -> s_user T s = [] -> forall a buf, ~ live s a buf.
Proof.
  intros T l s HR E Hn Hu a buf Hl. destruct (run_ok l (init T) inv_init HR) as (s' & E' & HI & _). rewrite E in E'. injection E' as <-.
  specialize (HI a). unfold live in Hl. rewrite Hl in HI. unfold owners in HI. rewrite Hu in HI. cbn [count_occ] in HI.
  assert (F : forall l : list (option mx), (forall i m, nth_error l i <> Some (Some m)) -> filter (fun o => match o with Some m => owns m a | None => false end) l = []).
  { induction l0 as [|x l0 IH]; intros H; [reflexivity|]. cbn [filter]. destruct x as [m|]; [exfalso; exact (H 0 m eq_refl)|]. apply IH. intros i m Q. exact (H (S i) m Q). }
  rewrite F in HI by exact Hn. cbn in HI. lia.
Qed.
Print Assumptions C34_no_leak.

(** C47.  What the operations leave in the matrices, after any history that respects the contract. *)
Theorem C47_values :
  forall (T : Type) (l : list (op T)) s, respects (init T) l -> run T (init T) l = Some s ->
    let fresh := length (s_objs T s) in
    (forall r c v s', step T s (Make T r c v) = Some s' -> contents s' fresh r c (repeat v (r * c))) /\
    (forall i r c v s', contents s i r c v -> step T s (Copy T i) = Some s' -> contents s' fresh r c v) /\
    (forall i j r c v s', contract s (CopyAssign T i j) -> contents s j r c v -> step T s (CopyAssign T i j) = Some s' -> contents s' i r c v) /\
    (forall i r c v s', contents s i r c v -> step T s (Move T i) = Some s' -> contents s' fresh r c v) /\
    (forall i j r c v s', contents s j r c v ->
       (forall m n a o, is_obj s i m -> is_obj s j n -> x_own n = false -> x_data n = Some (a, o) -> owns m a = false) ->
       step T s (MoveAssign T i j) = Some s' -> contents s' i r c v) /\
    (forall i r c v s', contract s (Resize T i r c v) -> step T s (Resize T i r c v) = Some s' -> contents s' i r c (repeat v (r * c))) /\
    (forall i r c v w s', contents s i r c w -> step T s (Fill T i v) = Some s' -> contents s' i r c (repeat v (r * c))) /\
    (forall i r c v j k, contents s i r c v -> j < r -> k < c ->
       exists a, nth_error v (j + k * r) = Some a /\ op_read T s i j k = Some (a, s)) /\
    (forall i r c v j k x s', contents s i r c v -> j < r -> k < c -> step T s (Write T i j k x) = Some s' ->
       contents s' i r c (firstn (j + k * r) v ++ x :: skipn (S (j + k * r)) v)).
Proof.
  intros T l s HR E fresh. destruct (run_ok l (init T) inv_init HR) as (s0 & E0 & HI). rewrite E in E0. injection E0 as <-.
  split; [intros r c v s'; exact (val_make s s' r c v)|]. split; [intros i r c v s'; exact (val_copy s s' i r c v HI)|].
  split; [intros i j r c v s'; exact (val_copy_assign s s' i j r c v HI)|]. split; [intros i r c v s'; exact (val_move s s' i r c v)|].
  split; [intros i j r c v s'; exact (val_move_assign s s' i j r c v HI)|]. split; [intros i r c v s'; exact (val_resize s s' i r c v HI)|].
  split; [intros i r c v w s'; exact (val_fill s s' i r c v w HI)|]. split; [intros i r c v j k; exact (val_read s i r c v j k HI)|].
  intros i r c v j k x s'. exact (val_write s s' i r c v j k x HI).
Qed.
Print Assumptions C47_values.

(** C47.  Copies are independent: a copy keeps its entries as long as the copy itself is left alone, whatever happens to
    the original and to all other matrices. *)
Theorem C47_copies_are_independent :
  forall (T : Type) (l1 l2 : list (op T)) s i r c v s1 s2,
    respects (init T) l1 -> run T (init T) l1 = Some s -> contents s i r c v -> step T s (Copy T i) = Some s1 ->
    let k := length (s_objs T s) in
    respects s1 l2 -> all_leave_alone s1 l2 k -> run T s1 l2 = Some s2 -> contents s2 k r c v.
Proof.
  intros T l1 l2 s i r c v s1 s2 HR E HC E1 k HR2 HA E2. destruct (run_ok l1 (init T) inv_init HR) as (s0 & E0 & HI). rewrite E in E0. injection E0 as <-.
  assert (K : contract s (Copy T i)). { pose proof HC as (m & Hm & _). exists m. split; [exact Hm|]. apply (contents_usable s i r c v m HC Hm). }
  destruct (ok_copy s i HI K) as (s1' & E1' & HI1). rewrite E1 in E1'. injection E1' as <-.
  pose proof (val_copy s s1 i r c v HI HC E1) as C1.
  assert (X : excl s1 k (length (s_heap T s))).
  { pose proof HC as (m & Hm & Er & Ec & _). cbn [step] in E1. unfold op_copy in E1. rewrite (obj_is _ _ _ Hm) in E1. cbn [bind] in E1.
    rewrite (contents_read s i r c v m HI HC Hm) in E1. cbn [bind new] in E1. injection E1 as <-. apply excl_fresh. exact HI. }
  exact (run_same l2 s1 s2 k (length (s_heap T s)) r c v HI1 HR2 E2 X HA C1).
Qed.
Print Assumptions C47_copies_are_independent.

(** *** A history that respects the contract: two matrices, a view of a column of the first one, moves, a release and a
    hand-over. *)
Definition ex_history : list (op nat) :=
  [ Make nat 2 3 7; Write nat 0 1 2 5; Copy nat 0; Default nat; Assign nat 2 2 1 (0, 4) false; Write nat 2 0 0 8; Move nat 0;
    Resize nat 0 2 2 1; CopyAssign nat 1 0; Release nat 0; Assign nat 0 2 2 (2, 0) true; MoveAssign nat 3 1; UserNew nat [1; 2]; Read nat 0 1 1 ].
Definition get_state (o : option (state nat)) : state nat := match o with Some s => s | None => init nat end.
Ltac next := split; [|intros s' E; vm_compute in E; injection E as <-].
Example ex_respects : respects (init nat) ex_history.
Proof.
  unfold ex_history. cbn [respects].
  next; [exact I|].
  next. { eexists. split; [reflexivity|]. split; [right; do 3 eexists; split; reflexivity|]. cbn. lia. }
  next. { eexists. split; [reflexivity|]. right; do 3 eexists; split; reflexivity. }
  next; [exact I|].
  next. { eexists. split; [reflexivity|]. split; [intros _ H; exfalso; apply H; reflexivity|]. split; [eexists; split; [reflexivity|cbn; lia]|discriminate]. }
  next. { eexists. split; [reflexivity|]. split; [right; do 3 eexists; split; reflexivity|]. cbn. lia. }
  next. { eexists. reflexivity. }
  next. { eexists. split; [reflexivity|]. cbn. lia. }
  next. { do 2 eexists. split; [reflexivity|]. split; [reflexivity|]. split; [right; do 3 eexists; split; reflexivity|]. split; [cbn; lia|]. cbn. discriminate. }
  next. { eexists. reflexivity. }
  next. { eexists. split; [reflexivity|]. split; [cbn; lia|]. split; [eexists; split; [reflexivity|cbn; lia]|]. intros _. cbn. auto. }
  next. { do 2 eexists. split; reflexivity. }
  next; [exact I|].
  next. { eexists. split; [reflexivity|]. split; [right; do 3 eexists; split; reflexivity|]. cbn. lia. }
  exact I.
Qed.
Example ex_history_runs : match run nat (init nat) ex_history with
  | Some s => length (s_objs nat s) = 4 /\ contents s 0 2 2 [1; 1; 1; 1] /\ s_user nat s = [4]
  | None => False end.
Proof.
  vm_compute run. split; [reflexivity|]. split; [|reflexivity].
  eexists. split; [reflexivity|]. split; [reflexivity|]. split; [reflexivity|]. split; [reflexivity|]. right. do 3 eexists. split; [reflexivity|]. split; [reflexivity|]. reflexivity.
Qed.

(** *** Outside the contract *)
(** A moved-from matrix resized to its old size: write through a null pointer. *)
Theorem C34_resize_moved_from_refuted : run nat (init nat) [Make nat 2 2 1; Move nat 0; Resize nat 0 2 2 0] = None.
Proof. reflexivity. Qed.
(** A view resized to its own size takes the buffer over: destroying it and the true owner frees the buffer twice. *)
Theorem C34_resize_view_refuted :
  run nat (init nat) [Make nat 2 2 1; Default nat; Assign nat 1 2 2 (0, 0) false; Resize nat 1 2 2 0; Destroy nat 1; Destroy nat 0] = None /\
  run nat (init nat) [Make nat 2 2 1; Default nat; Assign nat 1 2 2 (0, 0) false; Destroy nat 1; Destroy nat 0] <> None.
Proof. split; [reflexivity|discriminate]. Qed.
(** A matrix copied from a view of its own first column: the buffer is freed before it is read. *)
Theorem C34_copy_own_view_refuted :
  run nat (init nat) [Make nat 2 2 1; Default nat; Assign nat 1 2 1 (0, 0) false; CopyAssign nat 0 1] = None.
Proof. reflexivity. Qed.
(** assign on a matrix without entries loses its (empty) allocation. *)
Theorem C34_assign_empty_refuted :
  exists s, run nat (init nat) [Make nat 0 3 1; UserNew nat [1]; Assign nat 0 1 1 (1, 0) true; Destroy nat 0] = Some s /\
    (forall i m, ~ is_obj s i m) /\ s_user nat s = [] /\ live s 0 [].
Proof.
  eexists. split; [reflexivity|]. split; [|split; reflexivity]. intros [|[|i]] m E; discriminate.
Qed.
Print Assumptions C34_assign_empty_refuted.
