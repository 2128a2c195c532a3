(** * Proofs for C84: the programs of the processes compute the collective functions of DistModel.v and SolverModel.v. *)

From Coq Require Import List Arith Bool Lia.
From Verif Require Import ClusterModel IOModel BlockModel Algebra BlasModel HMatModel DistModel SolverModel ProcModel ProcSpec ProcProofs.
Import ListNotations.

Lemma all_some_inv : forall A (l : list (option A)) r, all_some l = Some r -> length r = length l /\ forall i d, i < length l -> nth i l None = Some (nth i r d).
Proof.
  intros A. induction l as [|o l IH]; intros r H; cbn [all_some] in H.
  - injection H as <-. split; [reflexivity|]. intros i d Hi. cbn [length] in Hi. lia.
  - destruct o as [a|]; [|discriminate]. destruct (all_some l) as [r'|] eqn:E; [|discriminate]. injection H as <-. destruct (IH r' eq_refl) as [H1 H2]. split; [cbn [length]; lia|].
    intros [|i] d Hi; [reflexivity|]. cbn [nth]. apply H2. cbn [length] in Hi. lia.
Qed.
Lemma on_ranks_inv : forall A P (f : nat -> option A) l, on_ranks P f = Some l -> length l = P /\ forall r d, r < P -> f r = Some (nth r l d).
Proof.
  intros A P f l H. unfold on_ranks in H. destruct (all_some_inv _ _ _ H) as [H1 H2]. rewrite map_length, seq_length in *. split; [exact H1|].
  intros r d Hr. specialize (H2 r d Hr). rewrite (nth_indep _ None (f 0)) in H2 by (rewrite map_length, seq_length; exact Hr). rewrite map_nth, seq_nth in H2 by exact Hr. exact H2.
Qed.
Lemma all_some_map : forall A (l : list A), all_some (map Some l) = Some l.
Proof. intros A. induction l as [|a l IH]; [reflexivity|]. cbn [map all_some]. rewrite IH. reflexivity. Qed.
Lemma all_some_nth : forall A P (f : nat -> option A) (l : list A) d, length l = P -> (forall j, j < P -> f j = Some (nth j l d)) -> all_some (map f (seq 0 P)) = Some l.
Proof.
  intros A P f l d HL H. rewrite <- (all_some_map A l). f_equal. apply nth_ext with (d := None) (d' := None); [rewrite !map_length, seq_length; lia|].
  intros i Hi. rewrite map_length, seq_length in Hi. rewrite (nth_indep _ None (f 0)) by (rewrite map_length, seq_length; exact Hi). rewrite map_nth, seq_nth by exact Hi. cbn [Nat.add].
  rewrite H by exact Hi. rewrite (nth_indep (map Some l) None (Some d)) by (rewrite map_length; lia). rewrite map_nth. reflexivity.
Qed.

Section Link.
  Variable K : Coef.
  Notation C := (car K).
  Notation buf := (list C).

  Section P.
    Variable P : nat.
    Definition tog {A : Type} (ps : nat -> prog K A) (res : nat -> A) : Prop := exists n, together K P n ps res.
    Lemma tog_lift : forall A B (d : A) (o : nat -> option A) (f : nat -> A -> prog K B) res, (forall r, r < P -> exists x, o r = Some x) ->
      (forall xs, (forall r, r < P -> o r = Some (xs r)) -> tog (fun r => f r (xs r)) res) -> tog (fun r => bind (lift (o r)) (f r)) res.
    Proof.
      intros A B d o f res Ho Hf. set (xs := fun r => match o r with Some x => x | None => d end).
      assert (Hx : forall r, r < P -> o r = Some (xs r)) by (intros r Hr; unfold xs; destruct (Ho r Hr) as (x & ->); reflexivity).
      destruct (Hf xs Hx) as (n & H). exists n. apply (together_lift K P A B n o xs); assumption.
    Qed.
    Lemma tog_last : forall A (o : nat -> option A) res, (forall r, r < P -> o r = Some (res r)) -> tog (fun r => lift (o r)) res.
    Proof. intros A o res H. exists 0. apply together_last. exact H. Qed.
    Lemma tog_bind : forall A B (ps : nat -> prog K A) xs (f : nat -> A -> prog K B) res, tog ps xs -> tog (fun r => f r (xs r)) res -> tog (fun r => bind (ps r) (f r)) res.
    Proof. intros A B ps xs f res (n & H1) (m & H2). exists (n + m). eapply together_bind; eassumption. Qed.
    Lemma tog_ret : forall A (ps : nat -> A), tog (fun r => Ret (ps r)) ps.
    Proof. intros A ps. exists 0. apply TRet. intros r Hr. reflexivity. Qed.
    Lemma tog_ext : forall A (ps qs : nat -> prog K A) res, (forall r, r < P -> ps r = qs r) -> tog ps res -> tog qs res.
    Proof. intros A ps qs res He (n & H). exists n. eapply together_ext; eassumption. Qed.
    Lemma tog_res : forall A (ps : nat -> prog K A) res res', (forall r, r < P -> res r = res' r) -> tog ps res -> tog ps res'.
    Proof. intros A ps res res' He (n & H). exists n. eapply together_res; eassumption. Qed.

    (** ** The collective routines *)
    Lemma put_zero : forall (b s : buf) d b', put K b s d 0 = Some b' -> b' = b.
    Proof. intros b s d b' H. unfold put in H. destruct ((0 <=? length s) && (d + 0 <=? length b)); [|discriminate]. injection H as <-. rewrite Nat.add_0_r. cbn [firstn app]. apply firstn_skipn. Qed.
    Lemma gather_fold : forall (cn ds : nat -> nat) (sends : nat -> buf) (cs : nat -> option (call K)) l, (forall j, In j l -> sent K (cs j) = Some (sends j)) -> forall recv b,
      fold_opt K (fun j b => put K b (sends j) (ds j) (cn j)) l recv = Some b ->
      fold_opt K (fun j b => if cn j =? 0 then Some b else do s <- sent K (cs j); put K b s (ds j) (cn j)) l recv = Some b.
    Proof.
      intros cn ds sends cs. induction l as [|j l IH]; intros H recv b Hf; [exact Hf|]. cbn [fold_opt] in *. destruct (put K recv (sends j) (ds j) (cn j)) as [b1|] eqn:E; [|discriminate].
      destruct (Nat.eqb_spec (cn j) 0) as [Z|Z].
      - rewrite Z in E. apply put_zero in E. subst b1. apply IH; [intros; apply H; right; assumption|exact Hf].
      - rewrite H by (left; reflexivity). rewrite E. apply IH; [intros; apply H; right; assumption|exact Hf].
    Qed.
    Lemma tog_allgatherv : forall (sends recvs : nat -> buf) (own : nat -> nat) cs ds (out : nat -> buf), (forall r, r < P -> nth_error cs r = Some (own r)) -> forall locs, (forall r, r < P -> sends r = at_rank K locs r) ->
      (forall r, r < P -> allgatherv K P cs ds locs (recvs r) = Some (out r)) -> tog (fun r => mpi K (Allgatherv (sends r) (own r) (recvs r) cs ds)) out.
    Proof.
      intros sends recvs own cs ds out Ho locs Hs H. exists 1. apply together_mpi.
      - intros r j Hr Hj. cbn [compatible]. rewrite (nth_error_nth _ _ 0 (Ho r Hr)), (nth_error_nth _ _ 0 (Ho j Hj)), !Nat.eqb_refl. reflexivity.
      - intros r Hr. cbn [receive]. specialize (H r Hr). unfold allgatherv in H. 
        rewrite (gather_fold (fun j => nth j cs 0) (fun j => nth j ds 0) (at_rank K locs) (fun j => Some (Allgatherv (sends j) (own j) (recvs j) cs ds)) (seq 0 P)) with (b := out r);
          [reflexivity| |exact H]. intros j Hj. apply in_seq in Hj. cbn [sent]. rewrite Hs by lia. reflexivity.
    Qed.
    Lemma tog_allreduce : forall (bs : nat -> buf) n (out : nat -> buf) l, length l = P -> (forall r, r < P -> bs r = at_rank K l r) ->
      (forall r, r < P -> allreduce K n l r = Some (out r)) -> tog (fun r => mpi K (Allreduce (bs r) n)) out.
    Proof.
      intros bs n out l HL Hb H. exists 1. apply together_mpi.
      - intros r j Hr Hj. cbn [compatible]. apply Nat.eqb_refl.
      - intros r Hr. cbn [receive]. specialize (H r Hr). destruct (Nat.eqb_spec n 0) as [->|Z].
        + unfold allreduce in H. destruct (forallb _ l); [|discriminate]. injection H as <-. rewrite Hb by exact Hr. reflexivity.
        + rewrite (all_some_nth buf P _ l [] HL); [rewrite H; reflexivity|]. intros j Hj. cbn [sent]. rewrite Hb by exact Hj. reflexivity.
    Qed.
    Lemma alltoall_fold : forall r (rc rd : nat -> nat) (sends : nat -> buf) (scr sdr : nat) (cs : nat -> option (call K)) l,
      (forall j, In j l -> sent_to K r (rc j) (cs j) = if scr =? rc j then ptr K (sends j) sdr else None) -> forall recv b,
      fold_opt K (fun j b => if scr =? rc j then do s <- ptr K (sends j) sdr; put K b s (rd j) (rc j) else None) l recv = Some b ->
      fold_opt K (fun j b => if rc j =? 0 then Some b else do s <- sent_to K r (rc j) (cs j); put K b s (rd j) (rc j)) l recv = Some b.
    Proof.
      intros r rc rd sends scr sdr cs. induction l as [|j l IH]; intros H recv b Hf; [exact Hf|]. cbn [fold_opt] in *. rewrite H by (left; reflexivity).
      destruct (scr =? rc j); [|discriminate]. destruct (ptr K (sends j) sdr) as [s|]; [|discriminate]. destruct (put K recv s (rd j) (rc j)) as [b1|] eqn:E; [|discriminate].
      destruct (Nat.eqb_spec (rc j) 0) as [Z|Z].
      - rewrite Z in E. apply put_zero in E. subst b1. apply IH; [intros; apply H; right; assumption|exact Hf].
      - apply IH; [intros; apply H; right; assumption|exact Hf].
    Qed.
    Lemma tog_alltoallv : forall (sends recvs : nat -> buf) sc sd (rc rd : nat -> list nat) (out : nat -> buf) locs, (forall r, r < P -> sends r = at_rank K locs r) ->
      (forall r j, r < P -> j < P -> nth j sc 0 = nth r (rc j) 0) ->
      (forall r, r < P -> alltoallv K P sc sd (rc r) (rd r) locs r (recvs r) = Some (out r)) ->
      tog (fun r => mpi K (Alltoallv (sends r) sc sd (recvs r) (rc r) (rd r))) out.
    Proof.
      intros sends recvs sc sd rc rd out locs Hs Hc H. exists 1. apply together_mpi.
      - intros r j Hr Hj. cbn [compatible]. rewrite (Hc r j Hr Hj), (Hc j r Hj Hr), !Nat.eqb_refl. reflexivity.
      - intros r Hr. cbn [receive]. specialize (H r Hr). unfold alltoallv in H.
        rewrite (alltoall_fold r (fun j => nth j (rc r) 0) (fun j => nth j (rd r) 0) (at_rank K locs) (nth r sc 0) (nth r sd 0)
          (fun j => Some (Alltoallv (sends j) sc sd (recvs j) (rc j) (rd j))) (seq 0 P)) with (b := out r); [reflexivity| |exact H].
        intros j Hj. apply in_seq in Hj. cbn [sent_to]. rewrite Hs by lia. reflexivity.
    Qed.
    Lemma tog_allgather : forall (x : nat -> nat), tog (fun r => mpi_ints K (Allgather (x r))) (fun _ => map x (seq 0 P)).
    Proof.
      intros x. exists 1. apply together_ints; [reflexivity|]. intros r Hr. cbn [receive].
      rewrite (all_some_nth nat P _ (map x (seq 0 P)) (x 0)); [reflexivity|rewrite map_length, seq_length; reflexivity|]. intros j Hj. cbn [sent_int]. rewrite map_nth, seq_nth by exact Hj. reflexivity.
    Qed.
    Lemma tog_bcast : forall (bs : nat -> buf) n root (out : nat -> buf), root < P -> (forall r, r < P -> put K (bs r) (bs root) 0 n = Some (out r)) -> tog (fun r => mpi K (Bcast (bs r) n root)) out.
    Proof.
      intros bs n root out Hroot H. exists 1. apply together_mpi.
      - intros r j Hr Hj. cbn [compatible]. rewrite !Nat.eqb_refl. reflexivity.
      - intros r Hr. cbn [receive sent]. apply Nat.ltb_lt in Hroot. rewrite Hroot. rewrite (H r Hr). reflexivity.
    Qed.
    Lemma tog_reduce : forall (bs : nat -> buf) n root l (e : buf), root < P -> length l = P -> (forall r, r < P -> bs r = at_rank K l r) -> allreduce K n l root = Some e ->
      tog (fun r => mpi K (Reduce (bs r) n root)) (fun r => if r =? root then e else bs r).
    Proof.
      intros bs n root l e Hroot HL Hb H. exists 1. apply together_mpi.
      - intros r j Hr Hj. cbn [compatible]. rewrite !Nat.eqb_refl. reflexivity.
      - intros r Hr. cbn [receive]. destruct (Nat.eqb_spec r root) as [->|Ne].
        + rewrite (all_some_nth buf P _ l [] HL); [rewrite H; reflexivity|]. intros j Hj. cbn [sent]. rewrite Hb by exact Hj. reflexivity.
        + apply Nat.ltb_lt in Hroot. rewrite Hroot. reflexivity.
    Qed.
  End P.

  (** The next local computation succeeds, by the hypothesis [E] on all the processes and the previous computations. *)
  Ltac local E d := apply (tog_lift _ _ _ d);
    [let r := fresh "r" in let Hr := fresh "Hr" in intros r Hr; specialize (E r Hr); repeat (match goal with H : forall q : nat, q < _ -> _ = Some _ |- _ => rewrite (H r Hr) in E end);
     match goal with |- exists x, ?o = Some x => destruct o; [eexists; reflexivity|try discriminate E] end|].
  Ltac last E := apply tog_last; let r := fresh "r" in let Hr := fresh "Hr" in intros r Hr; specialize (E r Hr); repeat (match goal with H : forall q : nat, q < _ -> _ = Some _ |- _ => rewrite (H r Hr) in E end); try exact E.
  (** What [E] says about the rest of the computation. *)
  Ltac rest E := let r := fresh "r" in let Hr := fresh "Hr" in intros r Hr; specialize (E r Hr); repeat (match goal with H : forall q : nat, q < _ -> _ = Some _ |- _ => rewrite (H r Hr) in E end); try exact E.

  Section Op.
    Variable D : dop K.
    Notation P := (world K D).

    Lemma counts_own : forall p mu cs, part_counts p P mu = Some cs -> length cs = P /\ forall r, r < P -> nth_error cs r = Some (nth r cs 0) /\ exists s, part_size p r = Some s /\ nth r cs 0 = s * mu.
    Proof.
      intros p mu cs H. destruct (on_ranks_inv _ _ _ _ H) as [H1 H2]. split; [exact H1|]. intros r Hr. split; [apply nth_error_nth'; lia|]. specialize (H2 r 0 Hr).
      destruct (part_size p r) as [s|]; [|discriminate]. exists s. split; [reflexivity|]. injection H2 as H2. rewrite H2. reflexivity.
    Qed.

    Lemma tog_counts : forall A p mu cs (f : nat -> list nat -> nat -> prog K A) res, part_counts p P mu = Some cs ->
      (forall c, (forall r, r < P -> nth_error cs r = Some (c r)) -> tog P (fun r => f r cs (c r)) res) ->
      tog P (fun r => bind (lift (part_counts p P mu)) (fun l => bind (own K r l) (f r l))) res.
    Proof.
      intros A p mu cs f res E H. rewrite E. destruct (counts_own _ _ _ E) as [Lc Hc].
      apply (tog_ext P _ (fun r => bind (own K r cs) (f r cs))); [reflexivity|]. apply (tog_lift P _ _ 0); [intros r Hr; destruct (Hc r Hr) as [-> _]; eexists; reflexivity|]. exact H.
    Qed.
    Lemma tog_const : forall A B (o : option A) x (f : nat -> A -> prog K B) res, o = Some x -> tog P (fun r => f r x) res -> tog P (fun r => bind (lift o) (f r)) res.
    Proof. intros A B o x f res E H. subst o. apply (tog_ext P _ (fun r => f r x)); [reflexivity|exact H]. Qed.
    Ltac ranks E := apply on_ranks_inv in E; let L := fresh "L" in let F := fresh "F" in destruct E as [L F]; assert (E := fun r => F r []); clear F.

    Lemma tog_vec_g2g : forall ins outs res, vec_g2g K D ins outs = Some res -> tog P (fun r => p_vec_g2g K D r (at_rank K ins r) (at_rank K outs r)) (at_rank K res).
    Proof.
      intros ins outs res H. unfold vec_g2g in H. destruct (on_ranks P _) as [locs|] eqn:E1 in H; [|discriminate]. destruct (part_counts (d_t K D) P 1) as [cs|] eqn:E2; [|discriminate].
      ranks E1. ranks H.
      unfold p_vec_g2g. local E1 0. intros s Hs. local E1 (@nil C). intros input Hin. local E1 (@nil C). intros loc Hloc.
      assert (Hl : forall r, r < P -> loc r = at_rank K locs r).
      { intros r Hr. specialize (E1 r Hr). rewrite (Hs r Hr), (Hin r Hr), (Hloc r Hr) in E1. injection E1 as E1. exact E1. }
      apply (tog_counts _ _ _ cs); [exact E2|]. intros c Hown. destruct (d_perm K D).
      - destruct (allgatherv K P cs (prefix_sums 0 cs) locs (vec0 K (nr K D))) as [b|] eqn:Eb.
        + apply (tog_bind P _ _ _ (fun _ => b)); [apply (tog_allgatherv P) with (locs := locs); try assumption; intros; exact Eb|]. last H.
        + exists 0. apply TRet. intros r Hr. specialize (H r Hr). discriminate.
      - apply (tog_allgatherv P) with (locs := locs); assumption.
    Qed.
    Lemma tog_mat_g2g : forall ins outs mu res, mat_g2g K D ins outs mu = Some res -> tog P (fun r => p_mat_g2g K D r (at_rank K ins r) (at_rank K outs r) mu) (at_rank K res).
    Proof.
      intros ins outs mu res H. unfold mat_g2g in H. destruct (on_ranks P _) as [locs|] eqn:E1 in H; [|discriminate]. destruct (part_counts (d_t K D) P mu) as [cs|] eqn:E2; [|discriminate].
      ranks E1. cbv zeta in H. ranks H.
      unfold p_mat_g2g. local E1 0. intros s Hs. local E1 (@nil C). intros input Hin. local E1 (@nil C). intros op Hop. local E1 (@nil C). intros loc Hloc.
      assert (Hl : forall r, r < P -> loc r = at_rank K locs r).
      { intros r Hr. specialize (E1 r Hr). rewrite (Hs r Hr), (Hin r Hr), (Hop r Hr), (Hloc r Hr) in E1. injection E1 as E1. exact E1. }
      cbv zeta. apply (tog_counts _ _ _ cs); [exact E2|]. intros c Hown.
      destruct (allgatherv K P cs (prefix_sums 0 cs) locs (vec0 K (if d_perm K D then 2 * nr K D * mu else nr K D * mu))) as [b|] eqn:Eb.
      2:{ exists 0. apply TRet. intros r Hr. specialize (H r Hr). discriminate. }
      apply (tog_bind P _ _ _ (fun _ => b)); [apply (tog_allgatherv P) with (locs := locs); try assumption; intros; exact Eb|]. destruct (d_perm K D).
      - apply (tog_lift P _ _ (@nil C, @nil C)).
        + intros r Hr. specialize (H r Hr). match goal with |- exists x, ?o = Some x => destruct o; [eexists; reflexivity|discriminate H] end.
        + intros xs Hxs. eapply tog_res; [|apply tog_ret]. intros r Hr. cbn beta. specialize (H r Hr). rewrite (Hxs r Hr) in H. injection H as H. exact H.
      - last H.
    Qed.
    Lemma tog_int_tvec_l2g : forall ins outs res, int_tvec_l2g K D ins outs = Some res -> tog P (fun r => p_int_tvec_l2g K D r (at_rank K ins r) (at_rank K outs r)) (at_rank K res).
    Proof.
      intros ins outs res H. unfold int_tvec_l2g in H. destruct (on_ranks P _) as [l|] eqn:E1 in H; [|discriminate]. ranks E1. ranks H. unfold p_int_tvec_l2g.
      local E1 (@nil C). intros o Ho. local E1 (@nil C). intros b Hb. apply (tog_allreduce P) with (l := l); [exact L| |exact H].
      intros r Hr. specialize (E1 r Hr). rewrite (Ho r Hr), (Hb r Hr) in E1. injection E1 as E1. exact E1.
    Qed.
    Lemma tog_int_tmat_l2g : forall ins outs mu res, int_tmat_l2g K D ins outs mu = Some res -> tog P (fun r => p_int_tmat_l2g K D r (at_rank K ins r) (at_rank K outs r) mu) (at_rank K res).
    Proof.
      intros ins outs mu res H. unfold int_tmat_l2g in H. destruct (on_ranks P _) as [l|] eqn:E1 in H; [|discriminate]. ranks E1. ranks H. unfold p_int_tmat_l2g.
      local E1 (@nil C). intros o Ho. local E1 (@nil C). intros b Hb. apply (tog_allreduce P) with (l := l); [exact L| |exact H].
      intros r Hr. specialize (E1 r Hr). rewrite (Ho r Hr), (Hb r Hr) in E1. injection E1 as E1. exact E1.
    Qed.
    Lemma rank_const : forall (b : buf) r, r < P -> at_rank K (map (fun _ => b) (seq 0 P)) r = b.
    Proof. intros b r Hr. unfold at_rank. rewrite (nth_indep (map (fun _ : nat => b) (seq 0 P)) [] ((fun _ : nat => b) 0)) by (rewrite map_length, seq_length; exact Hr). rewrite (map_nth (fun _ : nat => b) (seq 0 P) 0 r). reflexivity. Qed.
    (** From a collective function on given lists to a program on equal buffers. *)
    Lemma tog_with : forall (q : nat -> buf -> buf -> prog K buf) (ins outs : list buf) (x y : nat -> buf) res, tog P (fun r => q r (at_rank K ins r) (at_rank K outs r)) res ->
      (forall r, r < P -> x r = at_rank K ins r) -> (forall r, r < P -> y r = at_rank K outs r) -> tog P (fun r => q r (x r) (y r)) res.
    Proof. intros q ins outs x y res H Hx Hy. eapply tog_ext; [|exact H]. intros r Hr. cbn beta. rewrite (Hx r Hr), (Hy r Hr). reflexivity. Qed.

    Lemma tog_tvec_g2g : forall ins outs res, tvec_g2g K D ins outs = Some res -> tog P (fun r => p_tvec_g2g K D r (at_rank K ins r) (at_rank K outs r)) (at_rank K res).
    Proof.
      intros ins outs res H. unfold tvec_g2g in H. unfold p_tvec_g2g.
      assert (N : forall (b : bool), b = d_perm K D -> (do inputs <- on_ranks P (fun r => do input <- (if b then to_part K (d_t K D) (at_rank K ins r) (vec0 K (nr K D)) else Some (at_rank K ins r)); do o <- part_off (d_t K D) r; ptr K input o);
          if b then do os <- int_tvec_l2g K D inputs (map (fun _ => vec0 K (nc K D)) (seq 0 P)); on_ranks P (fun r => to_user K (d_s K D) (at_rank K os r) (at_rank K outs r)) else int_tvec_l2g K D inputs outs) = Some res ->
        tog P (fun r => bind (lift (if b then to_part K (d_t K D) (at_rank K ins r) (vec0 K (nr K D)) else Some (at_rank K ins r))) (fun input => bind (lift (part_off (d_t K D) r)) (fun o => bind (lift (ptr K input o)) (fun x =>
          if b then bind (p_int_tvec_l2g K D r x (vec0 K (nc K D))) (fun b0 => lift (to_user K (d_s K D) b0 (at_rank K outs r))) else p_int_tvec_l2g K D r x (at_rank K outs r))))) (at_rank K res)).
      { clear H. intros b _ H. destruct (on_ranks P _) as [inputs|] eqn:E1 in H; [|discriminate]. ranks E1. local E1 (@nil C). intros input Hin. local E1 0. intros o Ho. local E1 (@nil C). intros x Hx.
        assert (Ex : forall r, r < P -> x r = at_rank K inputs r).
        { intros r Hr. specialize (E1 r Hr). rewrite (Hin r Hr), (Ho r Hr), (Hx r Hr) in E1. injection E1 as E1. exact E1. }
        destruct b.
        - destruct (int_tvec_l2g K D inputs _) as [os|] eqn:E2 in H; [|discriminate]. ranks H. apply (tog_bind P _ _ _ (at_rank K os)); [|last H].
          apply (tog_with (fun r => p_int_tvec_l2g K D r) inputs (map (fun _ => vec0 K (nc K D)) (seq 0 P)) x (fun _ => vec0 K (nc K D))); [apply tog_int_tvec_l2g; exact E2|exact Ex|].
          intros r Hr. symmetry. apply rank_const. exact Hr.
        - apply (tog_with (fun r => p_int_tvec_l2g K D r) inputs outs x (at_rank K outs)); [apply tog_int_tvec_l2g; exact H|exact Ex|reflexivity]. }
      destruct (d_sym K D).
      - apply N; [reflexivity|exact H].
      - apply tog_vec_g2g. exact H.
      - destruct (on_ranks P _) as [ic|] eqn:E1 in H; [|discriminate]. destruct (vec_g2g K D ic outs) as [os|] eqn:E2 in H; [|discriminate]. ranks E1. ranks H.
        local E1 (@nil C). intros x Hx. apply (tog_bind P _ _ _ (at_rank K os)); [|last H]. apply (tog_with (fun r => p_vec_g2g K D r) ic outs x (at_rank K outs)); [apply tog_vec_g2g; exact E2| |reflexivity].
        intros r Hr. specialize (E1 r Hr). rewrite (Hx r Hr) in E1. injection E1 as E1. exact E1.
      - apply N; [reflexivity|exact H].
    Qed.
    Lemma tog_tmat_g2g : forall ins outs mu res, tmat_g2g K D ins outs mu = Some res -> tog P (fun r => p_tmat_g2g K D r (at_rank K ins r) (at_rank K outs r) mu) (at_rank K res).
    Proof.
      intros ins outs mu res H. unfold tmat_g2g in H. unfold p_tmat_g2g. destruct (d_sym K D).
      1,4: destruct (on_ranks P _) as [inputs|] eqn:E1 in H; [|discriminate]; destruct (int_tmat_l2g K D inputs _ mu) as [os|] eqn:E2 in H; [|discriminate]; ranks E1; cbv zeta in H; ranks H;
        local E1 0; intros s Hs; local E1 0; intros o Ho; local E1 (@nil C); intros x Hx; apply (tog_bind P _ _ _ (at_rank K os)); [|last H];
        apply (tog_with (fun r u v => p_int_tmat_l2g K D r u v mu) inputs (map (fun _ => vec0 K (mu * nc K D)) (seq 0 P)) x (fun _ => vec0 K (mu * nc K D))); [apply tog_int_tmat_l2g; exact E2| |intros r Hr; symmetry; apply rank_const; exact Hr];
        intros r Hr; specialize (E1 r Hr); rewrite (Hs r Hr), (Ho r Hr), (Hx r Hr) in E1; injection E1 as E1; exact E1.
      - apply tog_mat_g2g. exact H.
      - destruct (on_ranks P _) as [ic|] eqn:E1 in H; [|discriminate]. destruct (mat_g2g K D ic outs mu) as [os|] eqn:E2 in H; [|discriminate]. ranks E1. ranks H.
        local E1 (@nil C). intros x Hx. apply (tog_bind P _ _ _ (at_rank K os)); [|last H]. apply (tog_with (fun r u v => p_mat_g2g K D r u v mu) ic outs x (at_rank K outs)); [apply tog_mat_g2g; exact E2| |reflexivity].
        intros r Hr. specialize (E1 r Hr). rewrite (Hx r Hr) in E1. injection E1 as E1. exact E1.
    Qed.
    Lemma tog_l2g_source : forall ins outs mu res, l2g_source K D ins outs mu = Some res -> tog P (fun r => p_l2g_source K D r (at_rank K ins r) (at_rank K outs r) mu) (at_rank K res).
    Proof.
      intros ins outs mu res H. unfold l2g_source in H. destruct (part_counts (d_s K D) P mu) as [cs|] eqn:E2; [|discriminate]. ranks H. unfold p_l2g_source.
      apply (tog_counts _ _ _ cs); [exact E2|]. intros c Hown. apply (tog_allgatherv P) with (locs := ins); [exact Hown|reflexivity|exact H].
    Qed.
    Lemma tog_int_vec_l2l : forall ins outs works res, int_vec_l2l K D ins outs works = Some res ->
      tog P (fun r => p_int_vec_l2l K D r (at_rank K ins r) (at_rank K outs r) (at_rank K works r)) (at_rank K res).
    Proof.
      intros ins outs works res H. unfold int_vec_l2l in H. destruct (l2g_source K D ins works 1) as [bs|] eqn:E1; [|discriminate]. ranks H. unfold p_int_vec_l2l.
      apply (tog_bind P _ _ _ (at_rank K bs)); [apply tog_l2g_source; exact E1|]. last H.
    Qed.
    Lemma tog_int_mat_l2l : forall ins outs works mu res, int_mat_l2l K D ins outs works mu = Some res ->
      tog P (fun r => p_int_mat_l2l K D r (at_rank K ins r) (at_rank K outs r) (at_rank K works r) mu) (at_rank K res).
    Proof.
      intros ins outs works mu res H. unfold int_mat_l2l in H. destruct (l2g_source K D ins works mu) as [bs|] eqn:E1; [|discriminate]. ranks H. unfold p_int_mat_l2l.
      apply (tog_bind P _ _ _ (at_rank K bs)); [apply tog_l2g_source; exact E1|]. last H.
    Qed.
    Lemma tog_with3 : forall (q : nat -> buf -> buf -> buf -> prog K buf) (ins outs works : list buf) (x y z : nat -> buf) res, tog P (fun r => q r (at_rank K ins r) (at_rank K outs r) (at_rank K works r)) res ->
      (forall r, r < P -> x r = at_rank K ins r) -> (forall r, r < P -> y r = at_rank K outs r) -> (forall r, r < P -> z r = at_rank K works r) -> tog P (fun r => q r (x r) (y r) (z r)) res.
    Proof. intros q ins outs works x y z res H Hx Hy Hz. eapply tog_ext; [|exact H]. intros r Hr. cbn beta. rewrite (Hx r Hr), (Hy r Hr), (Hz r Hr). reflexivity. Qed.
    Lemma tog_vec_l2l : forall ins outs works res, vec_l2l K D ins outs works = Some res ->
      tog P (fun r => p_vec_l2l K D r (at_rank K ins r) (at_rank K outs r) (at_rank K works r)) (at_rank K res).
    Proof.
      intros ins outs works res H. unfold vec_l2l in H. unfold p_vec_l2l. destruct (d_perm K D); [|apply tog_int_vec_l2l; exact H].
      destruct (on_ranks P _) as [ip|] eqn:E1 in H; [|discriminate]. destruct (on_ranks P _) as [op|] eqn:E2 in H; [|discriminate]. destruct (int_vec_l2l K D ip op works) as [os|] eqn:E3; [|discriminate].
      ranks E1. ranks E2. ranks H. local E1 0. intros ss Hss. local E2 0. intros st Hst. local E1 (@nil C). intros x Hx. apply (tog_bind P _ _ _ (at_rank K os)); [|last H].
      apply (tog_with3 (fun r => p_int_vec_l2l K D r) ip op works x (fun r => vec0 K (st r)) (at_rank K works)); [apply tog_int_vec_l2l; exact E3| | |reflexivity].
      - intros r Hr. specialize (E1 r Hr). rewrite (Hss r Hr), (Hx r Hr) in E1. injection E1 as E1. exact E1.
      - intros r Hr. specialize (E2 r Hr). rewrite (Hst r Hr) in E2. injection E2 as E2. exact E2.
    Qed.
    Lemma tog_mat_l2l : forall ins outs works mu res, mat_l2l K D ins outs works mu = Some res ->
      tog P (fun r => p_mat_l2l K D r (at_rank K ins r) (at_rank K outs r) (at_rank K works r) mu) (at_rank K res).
    Proof.
      intros ins outs works mu res H. unfold mat_l2l in H. unfold p_mat_l2l.
      destruct (on_ranks P _) as [ip|] eqn:E1 in H; [|discriminate]. destruct (on_ranks P _) as [op|] eqn:E2 in H; [|discriminate]. destruct (int_mat_l2l K D ip op works mu) as [os|] eqn:E3; [|discriminate].
      ranks E1. ranks E2. ranks H. local E1 0. intros ss Hss. local E2 0. intros st Hst. local E1 (@nil C). intros x Hx. apply (tog_bind P _ _ _ (at_rank K os)); [|last H].
      apply (tog_with3 (fun r u v w => p_int_mat_l2l K D r u v w mu) ip op works x (fun r => vec0 K (st r * mu)) (at_rank K works)); [apply tog_int_mat_l2l; exact E3| | |reflexivity].
      - intros r Hr. specialize (E1 r Hr). rewrite (Hss r Hr), (Hx r Hr) in E1. injection E1 as E1. exact E1.
      - intros r Hr. specialize (E2 r Hr). rewrite (Hst r Hr) in E2. injection E2 as E2. exact E2.
    Qed.
    Lemma nth_same : forall (x : nat) P i, i < P -> nth i (map (fun _ => x) (seq 0 P)) 0 = x.
    Proof. intros x Q i Hi. rewrite (nth_indep (map (fun _ : nat => x) (seq 0 Q)) 0 ((fun _ : nat => x) 0)) by (rewrite map_length, seq_length; exact Hi). rewrite (map_nth (fun _ : nat => x) (seq 0 Q) 0 i). reflexivity. Qed.
    Lemma tog_int_tvec_l2l : forall ins outs works res, int_tvec_l2l K D ins outs works = Some res ->
      tog P (fun r => p_int_tvec_l2l K D r (at_rank K ins r) (at_rank K outs r) (at_rank K works r)) (at_rank K res).
    Proof.
      intros ins outs works res H. unfold int_tvec_l2l in H. unfold p_int_tvec_l2l.
      assert (N : (do parts <- on_ranks P (fun r => do b <- fill0 K (nc K D) (at_rank K works r); fold_opt K (fun v b => vl_tvec K v (c1 K) (at_rank K ins r) (c1 K) b) (ops_of K D r) b);
          do sc <- part_counts (d_s K D) P 1;
          on_ranks P (fun r =>
            do s <- part_size (d_s K D) r;
            do o <- fill0 K s (at_rank K outs r);
            let rc := map (fun _ => s) (seq 0 P) in
            do rbuf <- ptr K (at_rank K parts r) (nc K D);
            do rb <- alltoallv K P sc (prefix_sums 0 sc) rc (prefix_sums 0 rc) parts r rbuf;
            fold_opt K (fun i o => do q <- ptr K rb (nth i (prefix_sums 0 rc) 0); axpy K s (c1 K) q o) (seq 0 P) o)) = Some res ->
        tog P (fun r => bind (lift (fill0 K (nc K D) (at_rank K works r))) (fun b => bind (lift (fold_opt K (fun v b => vl_tvec K v (c1 K) (at_rank K ins r) (c1 K) b) (ops_of K D r) b)) (fun b =>
          bind (lift (part_counts (d_s K D) P 1)) (fun sc => bind (lift (part_size (d_s K D) r)) (fun s => bind (lift (fill0 K s (at_rank K outs r))) (fun o =>
          let rc := map (fun _ => s) (seq 0 P) in
          bind (lift (ptr K b (nc K D))) (fun rbuf => bind (mpi K (Alltoallv b sc (prefix_sums 0 sc) rbuf rc (prefix_sums 0 rc))) (fun rb =>
          lift (fold_opt K (fun i o => do q <- ptr K rb (nth i (prefix_sums 0 rc) 0); axpy K s (c1 K) q o) (seq 0 P) o))))))))) (at_rank K res)).
      { clear H. intros H. destruct (on_ranks P _) as [parts|] eqn:E1 in H; [|discriminate]. destruct (part_counts (d_s K D) P 1) as [sc|] eqn:E2; [|discriminate].
        ranks E1. cbv zeta in H. ranks H. local E1 (@nil C). intros b0 Hb0. local E1 (@nil C). intros b Hb. apply (tog_const _ _ _ sc); [reflexivity|].
        assert (Eb : forall r, r < P -> b r = at_rank K parts r).
        { intros r Hr. specialize (E1 r Hr). rewrite (Hb0 r Hr), (Hb r Hr) in E1. injection E1 as E1. exact E1. }
        local H 0. intros s Hs. local H (@nil C). intros o Ho. cbv zeta. apply (tog_lift P _ _ (@nil C)).
        { intros r Hr. specialize (H r Hr). rewrite (Hs r Hr), (Ho r Hr) in H. rewrite (Eb r Hr). destruct (ptr K (at_rank K parts r) (nc K D)); [eexists; reflexivity|discriminate]. }
        intros rbuf Hrb. assert (Hrb' : forall r, r < P -> ptr K (at_rank K parts r) (nc K D) = Some (rbuf r)) by (intros r Hr; rewrite <- (Eb r Hr); apply Hrb; exact Hr). clear Hrb.
        set (at' := fun r => alltoallv K P sc (prefix_sums 0 sc) (map (fun _ => s r) (seq 0 P)) (prefix_sums 0 (map (fun _ => s r) (seq 0 P))) parts r (rbuf r)).
        set (rb := fun r => match at' r with Some x => x | None => [] end).
        assert (Hrb : forall r, r < P -> at' r = Some (rb r)).
        { intros r Hr. specialize (H r Hr). rewrite (Hs r Hr), (Ho r Hr), (Hrb' r Hr) in H. unfold rb. fold (at' r) in H. destruct (at' r); [reflexivity|discriminate]. }
        apply (tog_bind P _ _ _ rb).
        - apply (tog_alltoallv P) with (locs := parts) (rc := fun r => map (fun _ => s r) (seq 0 P)) (rd := fun r => prefix_sums 0 (map (fun _ => s r) (seq 0 P))); [exact Eb| |exact Hrb].
          intros r j Hr Hj. rewrite nth_same by exact Hr. destruct (counts_own _ _ _ E2) as [_ Hc]. destruct (Hc j Hj) as (_ & s' & Hs' & ->). rewrite (Hs j Hj) in Hs'. injection Hs' as <-. lia.
        - apply tog_last. intros r Hr. specialize (H r Hr). rewrite (Hs r Hr), (Ho r Hr), (Hrb' r Hr) in H. fold (at' r) in H. rewrite (Hrb r Hr) in H. exact H. }
      destruct (d_sym K D); [apply N; exact H|apply tog_int_vec_l2l; exact H|apply tog_int_vec_l2l; exact H|apply N; exact H].
    Qed.
    Lemma tog_int_tmat_l2l : forall ins outs works mu res, int_tmat_l2l K D ins outs works mu = Some res ->
      tog P (fun r => p_int_tmat_l2l K D r (at_rank K ins r) (at_rank K outs r) (at_rank K works r) mu) (at_rank K res).
    Proof.
      intros ins outs works mu res H. unfold int_tmat_l2l in H. unfold p_int_tmat_l2l.
      assert (N : (do parts <- on_ranks P (fun r => do b <- fill0 K (nc K D * mu) (at_rank K works r); fold_opt K (fun v b => vl_tmat K v (c1 K) (at_rank K ins r) (c1 K) b mu) (ops_of K D r) b);
          do sc <- part_counts (d_s K D) P mu;
          on_ranks P (fun r =>
            do s <- part_size (d_s K D) r;
            let rc := map (fun _ => s * mu) (seq 0 P) in
            do rbuf <- ptr K (at_rank K parts r) (nc K D * mu);
            do rb <- alltoallv K P sc (prefix_sums 0 sc) rc (prefix_sums 0 rc) parts r rbuf;
            fold_opt K (fun i o => do q <- ptr K rb (nth i (prefix_sums 0 rc) 0); axpy K (s * mu) (c1 K) q o) (seq 0 P) (at_rank K outs r))) = Some res ->
        tog P (fun r => bind (lift (fill0 K (nc K D * mu) (at_rank K works r))) (fun b => bind (lift (fold_opt K (fun v b => vl_tmat K v (c1 K) (at_rank K ins r) (c1 K) b mu) (ops_of K D r) b)) (fun b =>
          bind (lift (part_counts (d_s K D) P mu)) (fun sc => bind (lift (part_size (d_s K D) r)) (fun s =>
          let rc := map (fun _ => s * mu) (seq 0 P) in
          bind (lift (ptr K b (nc K D * mu))) (fun rbuf => bind (mpi K (Alltoallv b sc (prefix_sums 0 sc) rbuf rc (prefix_sums 0 rc))) (fun rb =>
          lift (fold_opt K (fun i o => do q <- ptr K rb (nth i (prefix_sums 0 rc) 0); axpy K (s * mu) (c1 K) q o) (seq 0 P) (at_rank K outs r))))))))) (at_rank K res)).
      { clear H. intros H. destruct (on_ranks P _) as [parts|] eqn:E1 in H; [|discriminate]. destruct (part_counts (d_s K D) P mu) as [sc|] eqn:E2; [|discriminate].
        ranks E1. cbv zeta in H. ranks H. local E1 (@nil C). intros b0 Hb0. local E1 (@nil C). intros b Hb. apply (tog_const _ _ _ sc); [reflexivity|].
        assert (Eb : forall r, r < P -> b r = at_rank K parts r).
        { intros r Hr. specialize (E1 r Hr). rewrite (Hb0 r Hr), (Hb r Hr) in E1. injection E1 as E1. exact E1. }
        local H 0. intros s Hs. cbv zeta. apply (tog_lift P _ _ (@nil C)).
        { intros r Hr. specialize (H r Hr). rewrite (Hs r Hr) in H. rewrite (Eb r Hr). destruct (ptr K (at_rank K parts r) (nc K D * mu)); [eexists; reflexivity|discriminate]. }
        intros rbuf Hrb. assert (Hrb' : forall r, r < P -> ptr K (at_rank K parts r) (nc K D * mu) = Some (rbuf r)) by (intros r Hr; rewrite <- (Eb r Hr); apply Hrb; exact Hr). clear Hrb.
        set (at' := fun r => alltoallv K P sc (prefix_sums 0 sc) (map (fun _ => s r * mu) (seq 0 P)) (prefix_sums 0 (map (fun _ => s r * mu) (seq 0 P))) parts r (rbuf r)).
        set (rb := fun r => match at' r with Some x => x | None => [] end).
        assert (Hrb : forall r, r < P -> at' r = Some (rb r)).
        { intros r Hr. specialize (H r Hr). rewrite (Hs r Hr), (Hrb' r Hr) in H. unfold rb. fold (at' r) in H. destruct (at' r); [reflexivity|discriminate]. }
        apply (tog_bind P _ _ _ rb).
        - apply (tog_alltoallv P) with (locs := parts) (rc := fun r => map (fun _ => s r * mu) (seq 0 P)) (rd := fun r => prefix_sums 0 (map (fun _ => s r * mu) (seq 0 P))); [exact Eb| |exact Hrb].
          intros r j Hr Hj. rewrite nth_same by exact Hr. destruct (counts_own _ _ _ E2) as [_ Hc]. destruct (Hc j Hj) as (_ & s' & Hs' & ->). rewrite (Hs j Hj) in Hs'. injection Hs' as <-. reflexivity.
        - apply tog_last. intros r Hr. specialize (H r Hr). rewrite (Hs r Hr), (Hrb' r Hr) in H. fold (at' r) in H. rewrite (Hrb r Hr) in H. exact H. }
      destruct (d_sym K D); [apply N; exact H|apply tog_int_mat_l2l; exact H|apply tog_int_mat_l2l; exact H|apply N; exact H].
    Qed.
    Lemma tog_tvec_l2l : forall ins outs works res, tvec_l2l K D ins outs works = Some res ->
      tog P (fun r => p_tvec_l2l K D r (at_rank K ins r) (at_rank K outs r) (at_rank K works r)) (at_rank K res).
    Proof.
      intros ins outs works res H. unfold tvec_l2l in H. unfold p_tvec_l2l. destruct (d_sym K D).
      1,4: destruct (d_perm K D); [|apply tog_int_tvec_l2l; exact H];
        destruct (on_ranks P _) as [ip|] eqn:E1 in H; [|discriminate]; destruct (on_ranks P _) as [op|] eqn:E2 in H; [|discriminate]; destruct (int_tvec_l2l K D ip op works) as [os|] eqn:E3; [|discriminate];
        ranks E1; ranks E2; ranks H; local E1 0; intros st Hst; local E2 0; intros ss Hss; local E1 (@nil C); intros x Hx; apply (tog_bind P _ _ _ (at_rank K os)); [|last H];
        apply (tog_with3 (fun r => p_int_tvec_l2l K D r) ip op works x (fun r => vec0 K (ss r)) (at_rank K works)); [apply tog_int_tvec_l2l; exact E3| | |reflexivity];
        [intros r Hr; specialize (E1 r Hr); rewrite (Hst r Hr), (Hx r Hr) in E1; injection E1 as E1; exact E1|intros r Hr; specialize (E2 r Hr); rewrite (Hss r Hr) in E2; injection E2 as E2; exact E2].
      - apply tog_vec_l2l. exact H.
      - destruct (on_ranks P _) as [ic|] eqn:E1 in H; [|discriminate]. destruct (vec_l2l K D ic outs works) as [os|] eqn:E2 in H; [|discriminate]. ranks E1. ranks H.
        local E1 0. intros st Hst. local H 0. intros ss Hss. local E1 (@nil C). intros x Hx. apply (tog_bind P _ _ _ (at_rank K os)); [|last H].
        apply (tog_with3 (fun r => p_vec_l2l K D r) ic outs works x (at_rank K outs) (at_rank K works)); [apply tog_vec_l2l; exact E2| |reflexivity|reflexivity].
        intros r Hr. specialize (E1 r Hr). rewrite (Hst r Hr), (Hx r Hr) in E1. injection E1 as E1. exact E1.
    Qed.
    Lemma tog_tmat_l2l : forall ins outs works mu res, tmat_l2l K D ins outs works mu = Some res ->
      tog P (fun r => p_tmat_l2l K D r (at_rank K ins r) (at_rank K outs r) (at_rank K works r) mu) (at_rank K res).
    Proof.
      intros ins outs works mu res H. unfold tmat_l2l in H. unfold p_tmat_l2l. destruct (d_sym K D).
      1,4: destruct (on_ranks P _) as [ip|] eqn:E1 in H; [|discriminate]; destruct (on_ranks P _) as [op|] eqn:E2 in H; [|discriminate]; destruct (int_tmat_l2l K D ip op works mu) as [os|] eqn:E3; [|discriminate];
        ranks E1; ranks E2; ranks H; local E1 0; intros st Hst; local E2 0; intros ss Hss; local E1 (@nil C); intros x Hx; apply (tog_bind P _ _ _ (at_rank K os)); [|last H];
        apply (tog_with3 (fun r u v w => p_int_tmat_l2l K D r u v w mu) ip op works x (fun r => vec0 K (ss r * mu)) (at_rank K works)); [apply tog_int_tmat_l2l; exact E3| | |reflexivity];
        [intros r Hr; specialize (E1 r Hr); rewrite (Hst r Hr), (Hx r Hr) in E1; injection E1 as E1; exact E1|intros r Hr; specialize (E2 r Hr); rewrite (Hss r Hr) in E2; injection E2 as E2; exact E2].
      - apply tog_mat_l2l. exact H.
      - destruct (on_ranks P _) as [ic|] eqn:E1 in H; [|discriminate]. destruct (mat_l2l K D ic outs works mu) as [os|] eqn:E2 in H; [|discriminate]. ranks E1. ranks H.
        local E1 0. intros st Hst. local H 0. intros ss Hss. local E1 (@nil C). intros x Hx. apply (tog_bind P _ _ _ (at_rank K os)); [|last H].
        apply (tog_with3 (fun r u v w => p_mat_l2l K D r u v w mu) ic outs works x (at_rank K outs) (at_rank K works)); [apply tog_mat_l2l; exact E2| |reflexivity|reflexivity].
        intros r Hr. specialize (E1 r Hr). rewrite (Hst r Hr), (Hx r Hr) in E1. injection E1 as E1. exact E1.
    Qed.
  End Op.

  (** ** The coarse operator *)
  Lemma fold_opt_length : forall A (f : A -> buf -> option buf) l, (forall x b b', In x l -> f x b = Some b' -> length b' = length b) -> forall b b', fold_opt K f l b = Some b' -> length b' = length b.
  Proof.
    intros A f. induction l as [|a l IH]; intros H b b' E; cbn [fold_opt] in E; [injection E as <-; reflexivity|]. destruct (f a b) as [b1|] eqn:E1; [|discriminate].
    rewrite (IH (fun x u v Hx => H x u v (or_intror Hx)) _ _ E). apply (H a); [left; reflexivity|exact E1].
  Qed.
  Lemma set1_length : forall p v b b', set1 K p v b = Some b' -> length b' = length b.
  Proof.
    intros p v b b' H. unfold set1 in H. destruct (Nat.ltb_spec p (length b)) as [L|L]; [|discriminate]. assert (b' = firstn p b ++ v :: skipn (S p) b) as -> by congruence. rewrite app_length, firstn_length.
    change (length (v :: skipn (S p) b)) with (S (length (skipn (S p) b))). rewrite skipn_length. lia. Qed.
  Lemma mov_length : forall src p q b b', mov K src p q b = Some b' -> length b' = length b.
  Proof. intros src p q b b' H. unfold mov in H. destruct (p <? length src); [|discriminate]. eapply set1_length. exact H. Qed.

  Lemma tog_fold : forall P A S (d : S) (f : nat -> A -> S -> prog K S) (g : nat -> A -> S -> option S) l (s t : nat -> S),
    (forall i (u v : nat -> S), In i l -> (forall r, r < P -> g r i (u r) = Some (v r)) -> tog P (fun r => f r i (u r)) v) ->
    (forall r, r < P -> foldM (g r) l (s r) = Some (t r)) -> tog P (fun r => foldP K (f r) l (s r)) t.
  Proof.
    intros P A S d f g. induction l as [|a l IH]; intros s t Hf H; cbn [foldM foldP] in *.
    - eapply tog_res; [|apply tog_ret]. intros r Hr. specialize (H r Hr). injection H as H. exact H.
    - set (u := fun r => match g r a (s r) with Some x => x | None => d end).
      assert (Hu : forall r, r < P -> g r a (s r) = Some (u r)) by (intros r Hr; specialize (H r Hr); unfold u; destruct (g r a (s r)); [reflexivity|discriminate]).
      apply (tog_bind P _ _ _ u); [apply Hf; [left; reflexivity|exact Hu]|]. apply IH; [intros i x y Hi; apply Hf; right; exact Hi|].
      intros r Hr. specialize (H r Hr). rewrite (Hu r Hr) in H. exact H.
  Qed.

  Section Coarse.
    Variables (parts : list (nat * nat)) (sym : symc) (n : nat -> nat) (zs : nat -> list buf) (subs : nat -> list (buf -> buf -> nat -> nat -> nat -> option buf)).
    Notation P := (length parts).
    Notation ins := (n_inside parts).
    Notation ne := (nevis K parts zs).
    Notation size := (size_E K parts zs).

    Lemma pack_length : forall i evi b, pack_evi K parts n zs i evi = Some b -> length b = ins i * nth i ne 0.
    Proof.
      intros i evi b H. unfold pack_evi in H. apply fold_opt_length in H; [rewrite H; apply repeat_length|]. intros x u v _ Hx. apply fold_opt_length in Hx; [exact Hx|]. intros y u' v' _. apply mov_length.
    Qed.
    Lemma one_root_length : forall r evi i bc st st', one_root K parts sym n zs subs r evi i bc st = Some st' -> length (fst st') = length (fst st).
    Proof.
      intros r evi i bc st st' H. unfold one_root in H. destruct (nth i ne 0 =? 0); [injection H as <-; reflexivity|].
      destruct (fill0 K _ (snd st)) as [az0|]; [|discriminate]. destruct (match sym with SyH => _ | _ => _ end) as [b|]; [|discriminate]. destruct (fold_opt K _ (subs r) az0) as [az|]; [|discriminate].
      destruct (fold_opt K _ (seq 0 (nth i ne 0)) (fst st)) as [e|] eqn:E; [|discriminate]. injection H as <-. cbn [fst]. apply fold_opt_length in E; [exact E|].
      intros x u v _ Hx. destruct (fold_opt K _ (seq 0 (ins r)) _) as [w|]; [|discriminate]. apply fold_opt_length in Hx; [exact Hx|].
      intros y u' v' _ Hy. destruct (ptr K evi (y * n r)) as [q|]; [|discriminate]. destruct (inner K (ins r) q w) as [c|]; [|discriminate]. eapply set1_length. exact Hy.
    Qed.
    Lemma foldM_inv : forall A S (Q : S -> Prop) (f : A -> S -> option S) l, (forall a s s', Q s -> f a s = Some s' -> Q s') -> forall s s', Q s -> foldM f l s = Some s' -> Q s'.
    Proof. intros A S Q f. induction l as [|a l IH]; intros H s s' Hs E; cbn [foldM] in E; [injection E as <-; exact Hs|]. destruct (f a s) as [s1|] eqn:E1; [|discriminate]. eapply IH; [exact H| |exact E]. eapply H; eassumption. Qed.

    Lemma tog_one_root : forall (evi : nat -> buf) i (u v : nat -> buf * buf), i < P -> (forall r, r < P -> build_evi K parts n zs r = Some (evi r)) ->
      (forall r, r < P -> (do evi_i <- build_evi K parts n zs i; do bc <- pack_evi K parts n zs i evi_i; one_root K parts sym n zs subs r (evi r) i bc (u r)) = Some (v r)) ->
      tog P (fun r => p_one_root K parts sym r (n r) (zs r) (subs r) ne (evi r) i (u r)) v.
    Proof.
      intros evi i u v Hi Hevi H. unfold p_one_root. cbv zeta. destruct (pack_evi K parts n zs i (evi i)) as [bc|] eqn:Ep.
      2:{ exists 0. apply TRet. intros r Hr. specialize (H r Hr). rewrite (Hevi i Hi), Ep in H. discriminate. }
      assert (G : forall r, r < P -> one_root K parts sym n zs subs r (evi r) i bc (u r) = Some (v r)).
      { intros r Hr. specialize (H r Hr). rewrite (Hevi i Hi), Ep in H. exact H. }
      clear H. unfold one_root in G. cbv zeta in G. destruct (nth i ne 0 =? 0) eqn:Em.
      { eapply tog_res; [|apply tog_ret]. intros r Hr. specialize (G r Hr). injection G as G. exact G. }
      local G (@nil C). intros az0 Haz0. pose proof (pack_length i (evi i) bc Ep) as Lbc.
      apply (tog_lift P _ _ (@nil C)).
      { intros r Hr. destruct (Nat.eqb_spec r i) as [->|]; [|eexists; reflexivity]. exists bc. exact Ep. }
      intros bs Hbs. apply (tog_bind P _ _ _ (fun _ => bc)).
      { apply tog_bcast; [exact Hi|]. intros r Hr. assert (Ei : bs i = bc) by (specialize (Hbs i Hi); rewrite Nat.eqb_refl in Hbs; unfold pack_evi in Ep; rewrite Ep in Hbs; injection Hbs as Hbs; symmetry; exact Hbs).
        assert (Lr : length (bs r) = ins i * nth i ne 0).
        { destruct (Nat.eq_dec r i) as [Eri|Nri]; [rewrite Eri, Ei; exact Lbc|]. specialize (Hbs r Hr). apply Nat.eqb_neq in Nri. rewrite Nri in Hbs. assert (bs r = repeat (c0 K) (ins i * nth i ne 0)) as -> by congruence. apply repeat_length. }
        rewrite Ei. unfold put. rewrite Lbc, Lr. cbn [Nat.add]. rewrite Nat.leb_refl. cbn [andb firstn app]. rewrite firstn_all2 by lia. rewrite skipn_all2 by lia. rewrite app_nil_r. reflexivity. }
      apply (tog_lift P _ _ (@nil C)).
      { intros r Hr. specialize (G r Hr). rewrite (Haz0 r Hr) in G. match goal with |- exists x, ?o = Some x => destruct o; [eexists; reflexivity|discriminate G] end. }
      intros b Hb. apply (tog_lift P _ _ (@nil C)).
      { intros r Hr. specialize (G r Hr). rewrite (Haz0 r Hr), (Hb r Hr) in G. match goal with |- exists x, ?o = Some x => destruct o; [eexists; reflexivity|discriminate G] end. }
      intros az Haz. apply (tog_lift P _ _ (@nil C)).
      { intros r Hr. specialize (G r Hr). rewrite (Haz0 r Hr), (Hb r Hr), (Haz r Hr) in G. match goal with |- exists x, ?o = Some x => destruct o eqn:Eo; [eexists; reflexivity|] end.
        unfold displs, size_E in G. rewrite Eo in G. discriminate. }
      intros e He. eapply tog_res; [|apply tog_ret]. intros r Hr. cbn beta. specialize (G r Hr). rewrite (Haz0 r Hr), (Hb r Hr), (Haz r Hr) in G. unfold displs, size_E in G. rewrite (He r Hr) in G. injection G as G. exact G.
    Qed.

    Lemma tog_coarse : forall E, coarse_operator K parts sym n zs subs = Some E -> exists res, res 0 = md E /\ tog P (fun r => p_coarse K parts sym r (n r) (zs r) (subs r)) res.
    Proof.
      intros E H. unfold coarse_operator in H. destruct (on_ranks (world_c parts) _) as [es|] eqn:E1 in H; [|discriminate]. injection H as <-. cbn [HMatModel.md mkMat].
      unfold world_c in E1. apply on_ranks_inv in E1. destruct E1 as [L F]. set (e := mk (size * size) (fun p => lsum es (fun e => get e p))).
      exists (fun r => if r =? 0 then e else at_rank K es r). split; [reflexivity|]. unfold p_coarse. cbv zeta.
      apply (tog_bind P _ _ _ (fun _ => ne)); [apply tog_allgather|]. unfold local_E in F. assert (G := fun r => F r []). clear F.
      apply (tog_lift P _ _ (@nil C)).
      { intros r Hr. specialize (G r Hr). unfold build_evi at 1 in G. match goal with |- exists x, ?o = Some x => destruct o; [eexists; reflexivity|discriminate G] end. }
      intros evi Hevi.
      set (stf := fun r => foldM (fun i st => do evi_i <- build_evi K parts n zs i; do bc <- pack_evi K parts n zs i evi_i; one_root K parts sym n zs subs r (evi r) i bc st) (seq 0 P)
        (repeat (c0 K) (size * size), repeat (c0 K) (nevi_max K parts zs * ins r))).
      set (t := fun r => match stf r with Some x => x | None => ([], []) end).
      assert (Ht : forall r, r < P -> stf r = Some (t r)).
      { intros r Hr. specialize (G r Hr). unfold build_evi at 1 in G. rewrite (Hevi r Hr) in G. unfold world_c in G. fold (stf r) in G. unfold t. destruct (stf r); [reflexivity|discriminate]. }
      assert (Hes : forall r, r < P -> fst (t r) = at_rank K es r).
      { intros r Hr. specialize (G r Hr). unfold build_evi at 1 in G. rewrite (Hevi r Hr) in G. unfold world_c in G. fold (stf r) in G. rewrite (Ht r Hr) in G. injection G as G. exact G. }
      assert (Hlen : forall r, r < P -> length (at_rank K es r) = size * size).
      { intros r Hr. rewrite <- (Hes r Hr). specialize (Ht r Hr). unfold stf in Ht.
        apply (foldM_inv _ _ (fun s => length (fst s) = size * size)) in Ht; [exact Ht| |cbn [fst]; apply repeat_length].
        intros a s s' Hs Ef. destruct (build_evi K parts n zs a) as [x|]; [|discriminate]. destruct (pack_evi K parts n zs a x) as [y|]; [|discriminate]. apply one_root_length in Ef. lia. }
      apply (tog_bind P _ _ _ t).
      - apply (tog_fold P nat (buf * buf) ([], []) (fun r => p_one_root K parts sym r (n r) (zs r) (subs r) ne (evi r))
          (fun r i st => do evi_i <- build_evi K parts n zs i; do bc <- pack_evi K parts n zs i evi_i; one_root K parts sym n zs subs r (evi r) i bc st) (seq 0 P)); [|exact Ht].
        intros i u v Hi Huv. apply in_seq in Hi. apply tog_one_root; [lia| |exact Huv]. exact Hevi.
      - destruct (Nat.eq_dec P 0) as [Z|Z]; [exists 0; apply TRet; intros r Hr; lia|].
        eapply tog_res; [|apply (tog_reduce P (fun r => fst (t r)) (size * size) 0 es e); [lia|exact L|exact Hes|]].
        + intros r Hr. cbn beta. destruct (r =? 0); [reflexivity|apply Hes; exact Hr].
        + unfold allreduce. replace (forallb (fun b : list C => size * size <=? length b) es) with true.
          * rewrite skipn_all2 by (rewrite Hlen by lia; lia). rewrite app_nil_r. reflexivity.
          * symmetry. apply forallb_forall. intros b Hb. apply Nat.leb_le. apply (In_nth _ _ []) in Hb. destruct Hb as (j & Hj & <-). rewrite L in Hj. specialize (Hlen j Hj). unfold at_rank in Hlen. rewrite Hlen. reflexivity.
    Qed.
  End Coarse.
End Link.
