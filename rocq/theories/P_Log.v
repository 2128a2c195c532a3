(** * Property C76: the logger. *)

From Coq Require Import Ascii String List Arith Bool Lia.
From Verif Require Import IOModel LogModel.
Import ListNotations.
Local Open Scope list_scope.
Local Open Scope nat_scope.

(** What the calls [h] leave behind: the writer that was set last, and the level that was set last while the writer [w] was the
    current one. *)
Fixpoint last_writer (rh : list log_op) : nat :=
  match rh with [] => 0 | SetWriter w :: _ => w | _ :: h => last_writer h end.
Fixpoint last_level (w : nat) (rh : list log_op) : nat :=
  match rh with
  | [] => 10
  | SetLevel l :: h => if last_writer h =? w then l else last_level w h
  | _ :: h => last_level w h
  end.
(** What the k-th call writes, from the calls before it. *)
Definition written (user : nat -> bool) (before : list log_op) (o : log_op) : list (nat * str) :=
  let w := last_writer (rev before) in
  match o with
  | Log l m => if user w then [(w, m)] else if l <=? last_level w (rev before) then [(w, level_prefix l ++ m ++ [newline])] else []
  | _ => []
  end.

Lemma log_state_ok : forall user h, lg_current (fst (log_run user log_init h)) = last_writer (rev h) /\ forall w, lg_levels (fst (log_run user log_init h)) w = last_level w (rev h).
Proof.
  intros user h. induction h as [|o h IH] using rev_ind; [split; reflexivity|]. unfold log_run in *. rewrite fold_left_app, rev_app_distr. cbn [fold_left rev app].
  set (sp := fold_left (fun sp o => let '(s', out) := log_step user (fst sp) o in (s', snd sp ++ out)) h (log_init, [])) in *. destruct IH as [I1 I2]. destruct o as [l|w|l m]; cbn [log_step last_writer last_level fst].
  - cbn [lg_current lg_levels]. split; [exact I1|]. intros w. rewrite I1, I2. rewrite (Nat.eqb_sym w). reflexivity.
  - cbn [lg_current lg_levels]. split; [reflexivity|exact I2].
  - destruct (user (lg_current (fst sp))); [split; assumption|]. destruct (l <=? lg_levels (fst sp) (lg_current (fst sp))); split; assumption.
Qed.

(** C76.  A message goes to the writer that was set last; a standard writer prints it, once and in order, exactly when its level is
    at most the one that was set last for that writer (ERROR if none was). *)
Theorem C76_history :
  forall user h, snd (log_run user log_init h) = concat (map (fun k => written user (firstn k h) (nth k h (SetLevel 0))) (seq 0 (length h))).
Proof.
  intros user h. induction h as [|o h IH] using rev_ind; [reflexivity|]. pose proof (log_state_ok user h) as [S1 S2]. unfold log_run in *. rewrite fold_left_app. cbn [fold_left].
  set (sp := fold_left (fun sp o => let '(s', out) := log_step user (fst sp) o in (s', snd sp ++ out)) h (log_init, [])) in *.
  rewrite app_length. cbn [length]. rewrite Nat.add_1_r, seq_S, map_app, concat_app. cbn [map concat Nat.add]. rewrite app_nil_r.
  rewrite firstn_app, firstn_all, Nat.sub_diag, firstn_O, app_nil_r. rewrite app_nth2 by lia. rewrite Nat.sub_diag. cbn [nth].
  rewrite (map_ext_in (fun k => written user (firstn k (h ++ [o])) (nth k (h ++ [o]) (SetLevel 0))) (fun k => written user (firstn k h) (nth k h (SetLevel 0)))).
  - rewrite <- IH. unfold written. rewrite <- S1, <- S2. destruct o as [l|w|l m]; cbn [log_step snd fst]; [rewrite app_nil_r; reflexivity|rewrite app_nil_r; reflexivity|].
    destruct (user (lg_current (fst sp))); [reflexivity|]. destruct (l <=? lg_levels (fst sp) (lg_current (fst sp))); [reflexivity|cbn [snd]; rewrite app_nil_r; reflexivity].
  - intros k Hk. apply in_seq in Hk. rewrite firstn_app. replace (k - length h) with 0 by lia. rewrite firstn_O, app_nil_r. rewrite app_nth1 by lia. reflexivity.
Qed.
Print Assumptions C76_history.

(** Right after the level of a standard writer was set: the messages up to that level are printed, the others are not. *)
Theorem C76_after_set_level :
  forall user h lvl msgs, user (last_writer (rev h)) = false ->
    snd (log_run user log_init (h ++ SetLevel lvl :: map (fun x => Log (fst x) (snd x)) msgs)) =
    snd (log_run user log_init h) ++
    map (fun x => (last_writer (rev h), level_prefix (fst x) ++ snd x ++ [newline])) (filter (fun x => fst x <=? lvl) msgs).
Proof.
  intros user h lvl msgs Hu. pose proof (log_state_ok user h) as [S1 _]. unfold log_run in *. rewrite fold_left_app. cbn [fold_left]. set (sp := fold_left (fun sp o => let '(s', out) := log_step user (fst sp) o in (s', snd sp ++ out)) h (log_init, [])) in *.
  cbn [log_step]. rewrite app_nil_r.
  assert (G : forall msgs out, snd (fold_left (fun sp o => let '(s', out) := log_step user (fst sp) o in (s', snd sp ++ out)) (map (fun x => Log (fst x) (snd x)) msgs)
     (mkLog (lg_current (fst sp)) (fun w => if w =? lg_current (fst sp) then lvl else lg_levels (fst sp) w), out)) = out ++ map (fun x => (last_writer (rev h), level_prefix (fst x) ++ snd x ++ [newline])) (filter (fun x => fst x <=? lvl) msgs)).
  { clear msgs. induction msgs as [|[l m] msgs IH]; intros out; cbn [map fold_left filter]; [cbn [snd]; rewrite app_nil_r; reflexivity|]. cbn [fst snd log_step lg_current lg_levels]. rewrite S1 at 1. rewrite Hu. rewrite Nat.eqb_refl. destruct (l <=? lvl); cbn [map]; rewrite IH.
    - cbn [fst snd]. rewrite <- app_assoc, S1. reflexivity.
    - rewrite app_nil_r. reflexivity. }
  apply G.
Qed.
Print Assumptions C76_after_set_level.

(** A writer that is set again has kept its level; the level of the new writer is its own. *)
Theorem C76_writers_keep_their_level :
  forall h w w' l, w <> w' -> last_writer (rev h) = w -> last_level w (rev (h ++ [SetLevel l; SetWriter w'; SetLevel 40; SetWriter w])) = l.
Proof.
  intros h w w' l Hw E. rewrite rev_app_distr. cbn [rev app last_level last_writer]. rewrite (proj2 (Nat.eqb_neq w' w)) by congruence. rewrite E, Nat.eqb_refl. reflexivity.
Qed.
Print Assumptions C76_writers_keep_their_level.

(** By default warnings are dropped and errors are printed; a lower threshold hides errors, and a message of the CRITICAL level is never dropped. *)
Theorem C76_critical_is_always_printed : forall user h m, let w := last_writer (rev h) in
  exists t, snd (log_run user log_init (h ++ [Log 0 m])) = snd (log_run user log_init h) ++ [(w, t)] /\ (user w = false -> t = list_ascii_of_string "[Htool critical] " ++ m ++ [newline]).
Proof.
  intros user h m w. pose proof (log_state_ok user h) as [S1 _]. unfold log_run in *. rewrite fold_left_app. cbn [fold_left log_step]. set (sp := fold_left (fun sp o => let '(s', out) := log_step user (fst sp) o in (s', snd sp ++ out)) h (log_init, [])) in *. rewrite S1. fold w. destruct (user w).
  - exists m. split; [reflexivity|discriminate].
  - cbn [Nat.leb]. eexists. split; [reflexivity|]. reflexivity.
Qed.
Print Assumptions C76_critical_is_always_printed.

Example ex_history : map (fun x => (fst x, string_of_list_ascii (snd x))) (snd (log_run (fun w => w =? 2) log_init
   [Log 20 ["a"%char]; Log 10 ["b"%char]; SetLevel 20; Log 20 ["c"%char]; SetWriter 1; Log 20 ["d"%char]; SetWriter 2; Log 40 ["e"%char]; SetWriter 0; Log 20 ["f"%char]])) =
  [(0, "[Htool error]    b
"); (0, "[Htool warning]  c
"); (2, "e"); (0, "[Htool warning]  f
")]%string.
Proof. vm_compute. reflexivity. Qed.
