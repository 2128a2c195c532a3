(** * Lemmas for MachDdmModel.v. *)

From Coq Require Import List Arith ZArith Bool Lia Permutation.
From Verif Require Import ClusterModel ClusterSpec IOModel BlockModel Algebra BlasModel HMatModel DistModel DistSpec DistProofs ProcLink DdmModel DdmSpec MachModel MachDistModel
  MachDistSpec MachDistProofs MachDdmModel.
Import ListNotations.

Lemma resize_length : forall (K : Coef) m (b : list (car K)), length (resize K m b) = m.
Proof. intros K m b. unfold resize. rewrite app_length, firstn_length, repeat_length. lia. Qed.

Section P.
  Variable K : Coef.
  Variable S : ddm K.
  Notation D := (dd_op S).
  Notation n := (pa_n (d_t K D)).
  Notation P := (world K D).
  Notation dof := (dof K S).
  Variable mu : nat.
  Hypothesis Hmu : 1 <= mu.
  Hypothesis Hn1 : 1 <= n.
  Hypothesis Ht : partition_ok (d_t K D) P.
  Hypothesis Hn : fits (n * (if mu =? 1 then 1 else 2 * mu)).
  Hypothesis Hd : forall r, r < P -> fits (dof r * mu).
  Let Hnm : fits (n * mu).
  Proof. destruct (Nat.eqb_spec mu 1) as [E|E]; [rewrite E; exact Hn|]. refine (fits_le _ _ _ Hn). nia. Qed.

  Lemma local_rhs_eq : forall arrival rhs, local_rhs_m K S arrival mu rhs = local_rhs K S arrival mu rhs.
  Proof.
    intros arrival rhs. unfold local_rhs_m, local_rhs.
    match goal with |- (match on_ranks _ ?f with _ => _ end) = (match on_ranks _ ?g with _ => _ end) => assert (E : on_ranks P f = on_ranks P g) end.
    { apply on_ranks_ext. intros r Hr. destruct (part_size (d_t K D) r) as [s|] eqn:Es; [|reflexivity]. destruct (part_off (d_t K D) r) as [o|] eqn:Eo; [|reflexivity].
      assert (F := Hd r Hr). rewrite (nm_ok (dof r) mu) by exact F. cbv beta iota. apply fold_seq. intros i b Hi. rewrite (nm_ok i n) by fit Hnm. cbv beta iota.
      match goal with |- (match ?x with _ => _ end) = _ => destruct x as [q|]; [|reflexivity] end.
      match goal with |- (match ?x with _ => _ end) = _ => destruct x as [p|]; [|reflexivity] end.
      match goal with |- (match ?x with _ => _ end) = _ => destruct x as [src|]; [|reflexivity] end.
      rewrite (nm_ok i (dof r)) by fit F. reflexivity. }
    rewrite E. reflexivity.
  Qed.

  Lemma gather_eq : (forall r s, r < P -> part_size (d_t K D) r = Some s -> fits ((mu - 1) * (s * mu))) -> forall locs xs works outs,
    gather_solution_m K S mu locs xs works outs = gather_solution K S mu locs xs works outs.
  Proof.
    intros Hsq locs xs works outs. unfold gather_solution_m, gather_solution.
    match goal with |- (match on_ranks _ ?f with _ => _ end) = (match on_ranks _ ?g with _ => _ end) => assert (E : on_ranks P f = on_ranks P g) end.
    { apply on_ranks_ext. intros r Hr. destruct (part_size (d_t K D) r) as [s|] eqn:Es; [|reflexivity]. assert (F := Hd r Hr). assert (Fs := size_fits _ _ mu Ht Hnm _ _ Es).
      apply fold_seq. intros i b Hi. rewrite (nm_ok i (dof r)) by fit F. cbv beta iota. match goal with |- (match ?x with _ => _ end) = _ => destruct x as [src|]; [|reflexivity] end.
      rewrite (nm_ok i s) by fit Fs. reflexivity. }
    rewrite E. clear E. match goal with |- (match ?x with _ => _ end) = _ => destruct x as [lr|]; [|reflexivity] end.
    rewrite (counts_m _ _ mu Ht Hnm). destruct (part_counts (d_t K D) P mu) as [cs|] eqn:Ecs; [|reflexivity]. rewrite (prefix_m _ _ mu Ht Hnm cs Ecs). cbv zeta.
    assert (Fsq : forall i j, i < mu -> j < P -> fits (i * nth j cs 0)).
    { intros i j Hi Hj. destruct (counts_own K D _ _ _ Ecs) as [_ Hcs]. destruct (Hcs j Hj) as (_ & s & Es & ->).
      apply (fits_le _ ((mu - 1) * (s * mu))); [apply Nat.mul_le_mono_r; lia|exact (Hsq j s Hj Es)]. }
    apply on_ranks_ext. intros r Hr.
    replace (if mu =? 1 then Some 0 else nm mu n) with (Some (if mu =? 1 then 0 else mu * n)) by (destruct (mu =? 1); [reflexivity|symmetry; apply nm_ok; fit Hnm]).
    cbv beta iota. match goal with |- (match ?x with _ => _ end) = _ => destruct x as [g|]; [|reflexivity] end.
    match goal with |- (match ?x with _ => _ end) = (match ?y with _ => _ end) => replace x with y; [reflexivity|symmetry] end.
    apply foldM_seq. intros i bo Hi.
    match goal with |- (match ?x with _ => _ end) = (match ?y with _ => _ end) => replace x with y; [destruct y as [b1|]; [|reflexivity]|symmetry] end.
    - rewrite (nm_ok i n) by fit Hnm. reflexivity.
    - destruct (mu =? 1); [reflexivity|]. apply fold_seq. intros j b' Hj. rewrite (nm_ok mu n) by fit Hnm. cbv beta iota. rewrite (nm_ok i (nth j cs 0)) by (apply Fsq; assumption).
      cbv beta iota. rewrite (nm_ok i n) by fit Hnm. reflexivity.
  Qed.

  Lemma gather_none : mu <> 1 -> forall j s locs xs works outs, j < P -> part_size (d_t K D) j = Some s -> ~ fits ((mu - 1) * (s * mu)) ->
    gather_solution_m K S mu locs xs works outs = None.
  Proof.
    clear - Hmu. intros Hm1 j s locs xs works outs Hj Es Hbig. unfold gather_solution_m. replace (mu =? 1) with false by (symmetry; apply Nat.eqb_neq; exact Hm1).
    match goal with |- (match ?x with _ => _ end) = _ => destruct x as [lr|]; [|reflexivity] end.
    destruct (part_counts_m (d_t K D) P mu) as [cs|] eqn:Ecs; [|reflexivity].
    match goal with |- (match ?x with _ => _ end) = _ => destruct x as [ds|]; [|reflexivity] end.
    assert (Ecj : nth j cs 0 = s * mu).
    { destruct (on_ranks_inv _ _ _ _ Ecs) as [_ H2]. specialize (H2 j 0 Hj). rewrite Es in H2. apply nm_inv in H2. exact H2. }
    apply on_ranks_none with (r := j); [exact Hj|]. cbv beta.
    match goal with |- (match ?x with _ => _ end) = _ => destruct x as [g0|]; [|reflexivity] end.
    match goal with |- (match ?x with _ => _ end) = _ => destruct x as [g|]; [|reflexivity] end.
    match goal with |- (match ?x with _ => _ end) = _ => replace x with (@None (list (car K) * list (car K))); [reflexivity|symmetry] end.
    apply foldM_none with (a := mu - 1); [apply in_seq; lia|]. intros bo.
    match goal with |- (match ?x with _ => _ end) = _ => replace x with (@None (list (car K))); [reflexivity|symmetry] end.
    apply fold_none with (a := j); [apply in_seq; lia|]. intros b. rewrite Ecj. rewrite (nm_none (mu - 1)) by exact Hbig. destruct (nm mu n); reflexivity.
  Qed.


  Notation resized works := (map (fun r => resize K (n * (if mu =? 1 then 1 else 2 * mu)) (at_rank K works r)) (seq 0 P)).
  Lemma solve_eq : (forall r s, r < P -> part_size (d_t K D) r = Some s -> fits ((mu - 1) * (s * mu))) -> forall arrival krylov rhs works outs,
    solve_m K S arrival krylov mu rhs works outs = solve K S arrival krylov mu rhs (resized works) outs.
  Proof.
    intros Hsq arrival krylov rhs works outs. unfold solve_m, solve.
    assert (Ex : on_ranks P (fun r => do size <- nm (dof r) mu; Some (vec0 K size)) = Some (map (fun r => vec0 K (dof r * mu)) (seq 0 P))).
    { rewrite (on_ranks_ext _ _ _ (fun r => Some (vec0 K (dof r * mu)))) by (intros r Hr; rewrite nm_ok by exact (Hd r Hr); reflexivity).
      pose proof (all_some_map _ (map (fun r => vec0 K (dof r * mu)) (seq 0 P))) as Em. rewrite map_map in Em. exact Em. }
    rewrite Ex. cbv beta iota zeta.
    match goal with |- (match ?x with _ => _ end) = _ => assert (Ew : x = Some (resized works)) end.
    { rewrite (on_ranks_ext _ _ _ (fun r => Some (resize K (n * (if mu =? 1 then 1 else 2 * mu)) (at_rank K works r)))).
      - pose proof (all_some_map _ (map (fun r => resize K (n * (if mu =? 1 then 1 else 2 * mu)) (at_rank K works r)) (seq 0 P))) as Em. rewrite map_map in Em. exact Em.
      - intros r Hr. destruct (part_nth _ _ Ht r Hr) as (o & s & En & Hle). destruct (part_size_ok _ _ _ _ En) as [Es _]. rewrite Es. cbv beta iota.
        replace (if mu =? 1 then Some 1 else nm 2 mu) with (Some (if mu =? 1 then 1 else 2 * mu)).
        2:{ destruct (mu =? 1); [reflexivity|]. symmetry. apply nm_ok. refine (fits_le _ _ _ Hn). nia. }
        cbv beta iota. rewrite nm_ok by exact Hn. cbv beta iota. rewrite nm_ok; [reflexivity|]. refine (fits_le _ _ _ Hn). apply Nat.mul_le_mono_r. lia. }
    rewrite Ew. rewrite local_rhs_eq. destruct (local_rhs K S arrival mu rhs) as [b|]; [|reflexivity]. destruct (krylov b _) as [[w x]|]; [|reflexivity]. apply gather_eq. exact Hsq.
  Qed.

  Lemma gmv_eq : d_s K D = d_t K D -> (forall r, r < P -> forall o s, nth_error (pa_parts (d_t K D)) r = Some (o, s) -> s <= dof r) ->
    forall arrival ins outs buffers works, gmv_m K S arrival mu ins outs buffers works = gmv K S arrival mu ins outs buffers works.
  Proof.
    intros Hst Hds arrival ins outs buffers works. unfold gmv_m, gmv.
    assert (Hs : partition_ok (d_s K D) P) by (rewrite Hst; exact Ht).
    assert (Hc : fits (nc K D * mu)) by (unfold nc; rewrite Hst; exact Hnm).
    destruct (Nat.eqb_spec mu 1) as [E1|E1].
    - unfold int_vec_l2l. rewrite l2g_eq; [destruct (l2g_source K D ins works 1); reflexivity|exact Hs|rewrite E1 in Hc; exact Hc].
    - replace (mu =? 1) with false in Hn by (symmetry; apply Nat.eqb_neq; exact E1).
      match goal with |- (match on_ranks _ ?f with _ => _ end) = (match on_ranks _ ?g with _ => _ end) => assert (E : on_ranks P f = on_ranks P g) end.
      { apply on_ranks_ext. intros r Hr. destruct (part_size (d_t K D) r) as [s|] eqn:Es; [|reflexivity]. assert (F := Hd r Hr). assert (Fs := size_fits _ _ mu Ht Hnm _ _ Es).
        destruct (part_nth _ _ Ht r Hr) as (o & s' & En & _). assert (Hsd := Hds r Hr o s' En). destruct (part_size_ok _ _ _ _ En) as [Es' _]. rewrite Es in Es'. injection Es' as <-.
        match goal with |- (match ?x with _ => _ end) = (match ?y with _ => _ end) => replace x with y; [destruct y as [b|]; [|reflexivity]|symmetry] end.
        - unfold conj_herm. destruct (sym_is_H (d_sym K D)); [|reflexivity]. rewrite nm_ok by exact Fs. reflexivity.
        - apply fold_seq. intros i b Hi. apply fold_seq. intros j b' Hj. rewrite (nm_ok j mu) by fit Fs. cbv beta iota. rewrite (na_ok i (j * mu)) by fit Fs. cbv beta iota.
          rewrite (nm_ok i (dof r)) by fit F. cbv beta iota. rewrite (na_ok (i * dof r) j) by fit F. reflexivity. }
      rewrite E. clear E. match goal with |- (match ?x with _ => _ end) = _ => destruct x as [bufs|]; [|reflexivity] end.
      match goal with |- (match on_ranks _ ?f with _ => _ end) = (match on_ranks _ ?g with _ => _ end) => assert (E : on_ranks P f = on_ranks P g) end.
      { apply on_ranks_ext. intros r Hr. destruct (part_size (d_t K D) r) as [s|] eqn:Es; [|reflexivity]. rewrite nm_ok by exact (size_fits _ _ mu Ht Hnm _ _ Es). reflexivity. }
      rewrite E. clear E. match goal with |- (match ?x with _ => _ end) = _ => destruct x as [ob|]; [|reflexivity] end.
      rewrite (int_mat_l2l_eq K D mu Ht Hs Hnm Hc). match goal with |- (match ?x with _ => _ end) = _ => destruct x as [os|]; [|reflexivity] end.
      match goal with |- (match on_ranks _ ?f with _ => _ end) = (match on_ranks _ ?g with _ => _ end) => assert (E : on_ranks P f = on_ranks P g); [|rewrite E; reflexivity] end.
      apply on_ranks_ext. intros r Hr. destruct (part_size (d_t K D) r) as [s|] eqn:Es; [|reflexivity]. assert (F := Hd r Hr). assert (Fs := size_fits _ _ mu Ht Hnm _ _ Es).
      destruct (part_nth _ _ Ht r Hr) as (o & s' & En & Hle). assert (Hsd := Hds r Hr o s' En). destruct (part_size_ok _ _ _ _ En) as [Es' _]. rewrite Es in Es'. injection Es' as <-.
      match goal with |- (match ?x with _ => _ end) = (match ?y with _ => _ end) => replace x with y; [destruct y as [row|]; [|reflexivity]|symmetry] end.
      2:{ unfold conj_herm. destruct (sym_is_H (d_sym K D)); [|reflexivity]. rewrite nm_ok by exact Fs. reflexivity. }
      assert (F2 : fits (2 * s * mu)) by (refine (fits_le _ _ _ Hn); nia).
      apply fold_seq. intros i b Hi.
      match goal with |- (match ?x with _ => _ end) = (match ?y with _ => _ end) => replace x with y; [destruct y as [o'|]; [|reflexivity]|symmetry] end.
      + assert (Fi : fits ((i + 1) * dof r)) by (refine (fits_le _ _ _ F); nia). assert (Fi' : fits (i + 1)).
        { refine (fits_le _ _ _ Hn). nia. }
        rewrite (nm_ok i (dof r)) by fit Fi. cbv beta iota. rewrite (na_ok i 1) by exact Fi'. cbv beta iota. rewrite (nm_ok (i + 1) (dof r)) by exact Fi. reflexivity.
      + apply fold_seq. intros j b' Hj.
        rewrite (nm_ok i (dof r)) by fit F. cbv beta iota. rewrite (na_ok (i * dof r) j) by fit F. cbv beta iota. rewrite (nm_ok j mu) by fit Fs. cbv beta iota.
        rewrite (na_ok i (j * mu)) by fit Fs. cbv beta iota. rewrite (nm_ok s mu) by exact Fs. cbv beta iota. rewrite (na_ok (i + j * mu) (s * mu)) by fit F2. reflexivity.
  Qed.
End P.
