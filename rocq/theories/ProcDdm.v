(** * Proofs for C84: the gathering of the solutions in DDM::solve, process by process. *)

From Coq Require Import List Arith Bool Lia.
From Verif Require Import ClusterModel IOModel BlockModel Algebra BlasModel HMatModel DistModel SolverModel DdmModel ProcModel ProcSpec ProcProofs ProcLink.
Import ListNotations.

Section ProcDdm.
  Variable K : Coef.
  Notation C := (car K).
  Notation buf := (list C).
  Variable S : ddm K.
  Notation D := (dd_op S).
  Notation P := (world K D).

  Lemma tog_gather_solution : forall mu locs xs works outs ys, gather_solution K S mu locs xs works outs = Some ys ->
    tog K P (fun r => p_gather_solution K D r (dof K S r) mu (at_rank K locs r) (at_rank K xs r) (at_rank K works r) (at_rank K outs r)) (at_rank K ys).
  Proof.
    intros mu locs xs works outs ys H. unfold gather_solution in H. cbv zeta in H. destruct (on_ranks P _) as [lr|] eqn:E1 in H; [|discriminate].
    destruct (part_counts (d_t K D) P mu) as [cs|] eqn:E2; [|discriminate].
    apply on_ranks_inv in E1. destruct E1 as [_ F1]. assert (E1 := fun r => F1 r []). clear F1. apply on_ranks_inv in H. destruct H as [_ F]. assert (H := fun r => F r []). clear F.
    unfold p_gather_solution.
    apply (tog_lift K P _ _ 0); [intros r Hr; specialize (E1 r Hr); destruct (part_size (d_t K D) r); [eexists; reflexivity|discriminate E1]|]. intros s Hs.
    apply (tog_lift K P _ _ (@nil C)); [intros r Hr; specialize (E1 r Hr); rewrite (Hs r Hr) in E1; eexists; exact E1|]. intros l Hl.
    assert (El : forall r, r < P -> l r = at_rank K lr r).
    { intros r Hr. specialize (E1 r Hr). rewrite (Hs r Hr) in E1. assert (Some (l r) = Some (at_rank K lr r)) by (rewrite <- (Hl r Hr); exact E1). congruence. }
    apply (tog_counts K D _ _ _ cs); [exact E2|]. intros c Hown. cbv zeta.
    set (base := if mu =? 1 then 0 else mu * nr K D). change (pa_n (d_t K D)) with (nr K D) in H.
    set (wr := fun r => skipn base (at_rank K works r)).
    set (ag := fun r => allgatherv K P cs (prefix_sums 0 cs) lr (wr r)).
    assert (Hb : forall r, r < P -> (base <=? length (at_rank K works r)) = true /\ exists w, ag r = Some w).
    { intros r Hr. specialize (H r Hr). unfold write_at at 1 in H. fold base in H. rewrite Nat.sub_0_r in H. change (0 <=? base) with true in H. cbn [andb] in H.
      destruct (base <=? length (at_rank K works r)); [|discriminate]. split; [reflexivity|]. unfold ag, wr.
      destruct (allgatherv K P cs (prefix_sums 0 cs) lr (skipn base (at_rank K works r))) as [w|]; [exists w; reflexivity|discriminate]. }
    apply (tog_lift K P _ _ (@nil C)).
    { intros r Hr. unfold ptr. rewrite (proj1 (Hb r Hr)). eexists; reflexivity. }
    intros w Hw. assert (Ew : forall r, r < P -> w r = wr r).
    { intros r Hr. specialize (Hw r Hr). unfold ptr in Hw. rewrite (proj1 (Hb r Hr)) in Hw. assert (Some (wr r) = Some (w r)) by exact Hw. congruence. }
    set (g := fun r => match ag r with Some x => x | None => [] end).
    assert (Hg : forall r, r < P -> ag r = Some (g r)) by (intros r Hr; unfold g; destruct (Hb r Hr) as (_ & x & ->); reflexivity).
    apply (tog_bind K P _ _ _ g).
    { apply (tog_allgatherv K P) with (locs := lr); [exact Hown|exact El|]. intros r Hr. rewrite (Ew r Hr). exact (Hg r Hr). }
    apply tog_last. intros r Hr. specialize (H r Hr). unfold write_at at 1 in H. fold base in H. rewrite Nat.sub_0_r in H. change (0 <=? base) with true in H. cbn [andb] in H. rewrite (proj1 (Hb r Hr)) in H.
    pose proof (Hg r Hr) as G. unfold ag, wr in G. rewrite G in H. exact H.
  Qed.
End ProcDdm.
