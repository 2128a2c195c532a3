(** * Machine integers: proofs (property C83). *)

From Coq Require Import List Arith ZArith Bool Lia Permutation.
From Verif Require Import Algebra BlasModel HMatModel Field DistModel CompModel ClusterModel ClusterSpec ClusterProofs ClusterPartition ClusterMore ClusterFinal ClusterIO ClusterDepth MachModel P_Cluster BalanceProofs P_Balance.
Import ListNotations.

Lemma int_ok_nat : forall z, (0 <= z)%Z -> int_ok z = (z <? 2 ^ 31)%Z.
Proof. intros z H. unfold int_ok. destruct (Z.leb_spec (- 2 ^ 31) z); [reflexivity|]. lia. Qed.
Lemma imul_some : forall a b, (0 <= a)%Z -> (0 <= b)%Z -> (a * b < 2 ^ 31)%Z -> imul a b = Some (a * b)%Z.
Proof. intros a b Ha Hb H. unfold imul. rewrite int_ok_nat by nia. rewrite (proj2 (Z.ltb_lt _ _) H). reflexivity. Qed.
Lemma imul_none : forall a b, (2 ^ 31 <= a * b)%Z -> imul a b = None.
Proof. intros a b H. unfold imul, int_ok. rewrite (proj2 (Z.ltb_ge _ _) H), andb_false_r. reflexivity. Qed.
Lemma iadd_some : forall a b, (0 <= a)%Z -> (0 <= b)%Z -> (a + b < 2 ^ 31)%Z -> iadd a b = Some (a + b)%Z.
Proof. intros a b Ha Hb H. unfold iadd. rewrite int_ok_nat by lia. rewrite (proj2 (Z.ltb_lt _ _) H). reflexivity. Qed.

Lemma nat_ltb_Z : forall a b, (Z.of_nat a <? Z.of_nat b)%Z = (a <? b).
Proof. intros a b. destruct (Z.ltb_spec (Z.of_nat a) (Z.of_nat b)); destruct (Nat.ltb_spec a b); try reflexivity; lia. Qed.
Lemma cost_test_ok : forall q M N, (Z.of_nat M + Z.of_nat N < 2 ^ 31)%Z -> (Z.of_nat q * (Z.of_nat M + Z.of_nat N) < 2 ^ 31)%Z -> (Z.of_nat M * Z.of_nat N < 2 ^ 31)%Z ->
  cost_test q M N = Some (M * N <? q * (M + N)).
Proof.
  intros q M N H1 H2 H3. unfold cost_test. rewrite iadd_some by lia. rewrite imul_some by lia. rewrite imul_some by lia. f_equal. rewrite <- nat_ltb_Z. f_equal; lia.
Qed.
Lemma cost_test_inv : forall q M N b, cost_test q M N = Some b ->
  (Z.of_nat M + Z.of_nat N < 2 ^ 31)%Z /\ (Z.of_nat q * (Z.of_nat M + Z.of_nat N) < 2 ^ 31)%Z /\ (Z.of_nat M * Z.of_nat N < 2 ^ 31)%Z /\ b = (M * N <? q * (M + N)).
Proof.
  intros q M N b H. unfold cost_test, iadd, imul in H. rewrite int_ok_nat in H by lia. destruct (Z.ltb_spec (Z.of_nat M + Z.of_nat N) (2 ^ 31)) as [H1|]; [|discriminate].
  rewrite int_ok_nat in H by nia. destruct (Z.ltb_spec (Z.of_nat q * (Z.of_nat M + Z.of_nat N)) (2 ^ 31)) as [H2|]; [|discriminate].
  rewrite int_ok_nat in H by nia. destruct (Z.ltb_spec (Z.of_nat M * Z.of_nat N) (2 ^ 31)) as [H3|]; [|discriminate]. injection H as <-. split; [exact H1|]. split; [exact H2|]. split; [exact H3|].
  rewrite <- nat_ltb_Z. f_equal; lia.
Qed.
Definition fits (M N : nat) : Prop := ((Z.of_nat M + 1) * (Z.of_nat N + 1) <= 2 ^ 31)%Z.
Lemma fits_test : forall q M N, fits M N -> q * (M + N) <= M * N -> cost_test (S q) M N = Some (M * N <? S q * (M + N)).
Proof. intros q M N H Hq. unfold fits in H. apply cost_test_ok; nia. Qed.
Lemma overflow_test : forall q M N, (2 ^ 31 <= Z.of_nat M * Z.of_nat N)%Z -> cost_test q M N = None.
Proof. intros q M N H. destruct (cost_test q M N) as [b|] eqn:E; [|reflexivity]. apply cost_test_inv in E. lia. Qed.
Lemma allocate_ok : forall r c, (Z.of_nat r * Z.of_nat c < 2 ^ 31)%Z -> allocate r c = Some (r * c).
Proof. intros r c H. unfold allocate. rewrite imul_some by lia. f_equal. lia. Qed.
Lemma allocate_none : forall r c, (2 ^ 31 <= Z.of_nat r * Z.of_nat c)%Z -> allocate r c = None.
Proof. intros r c H. unfold allocate. rewrite imul_none by lia. reflexivity. Qed.

Section Loops.
  Variable X : Num.
  Notation K := (fk (nfd X)).
  Notation C := (car K).

  Lemma full_loop_same : forall over tol fuel req n0 q (m : mat K) uu vv, fits (mr m) (mc m) -> q * (mr m + mc m) <= mr m * mc m ->
    full_loop_m X cost_test over tol fuel req n0 q m uu vv = full_loop X over tol fuel req n0 q m uu vv.
  Proof.
    intros over tol. induction fuel as [|fuel IH]; intros req n0 q m uu vv HF Hq; [reflexivity|]. cbn [full_loop_m full_loop].
    destruct (_ || _); [|reflexivity]. rewrite fits_test by assumption. destruct (Nat.ltb_spec (mr m * mc m) (S q * (mr m + mc m))) as [|G]; [reflexivity|].
    destruct (argmax X m) as [[i j]|]; [|reflexivity]. destruct (nltb X _ _); [reflexivity|]. apply IH; [exact HF|exact G].
  Qed.
  Lemma partial_loop_same : forall over tol swap n1 n2 row col fuel req I J q uu vv v1 v2 aux frob, fits n1 n2 -> q * (n1 + n2) <= n1 * n2 ->
    partial_loop_m X cost_test over tol swap n1 n2 row col fuel req I J q uu vv v1 v2 aux frob = partial_loop X over tol swap n1 n2 row col fuel req I J q uu vv v1 v2 aux frob.
  Proof.
    intros over tol swap n1 n2 row col. induction fuel as [|fuel IH]; intros req I J q uu vv v1 v2 aux frob HF Hq; [reflexivity|]. cbn [partial_loop_m partial_loop].
    destruct (_ || _); [|reflexivity]. rewrite fits_test by assumption. destruct (Nat.ltb_spec (n1 * n2) (S q * (n1 + n2))) as [|G]; [reflexivity|].
    destruct (subtract X n2 I uu vv (row I)) as [r|]; [|reflexivity]. destruct (_ <=? _); [reflexivity|]. destruct (nltb X tol _); [|reflexivity].
    destruct (subtract X n1 _ vv uu _) as [w|]; [|reflexivity]. apply IH; assumption.
  Qed.
  Lemma partial_loop_overflow : forall over tol swap n1 n2 row col fuel req I J uu vv v1 v2 aux frob, (2 ^ 31 <= Z.of_nat n1 * Z.of_nat n2)%Z -> req <> 0%Z ->
    partial_loop_m X cost_test over tol swap n1 n2 row col fuel req I J 0 uu vv v1 v2 aux frob = None.
  Proof.
    intros over tol swap n1 n2 row col [|fuel] req I J uu vv v1 v2 aux frob HO Hr; [reflexivity|]. cbn [partial_loop_m].
    replace (((0 <? req)%Z && (Z.of_nat 0 <? Z.min req (Z.min (Z.of_nat n1) (Z.of_nat n2)))%Z) || ((req <? 0)%Z && ((0 =? 0) || over aux frob))) with true.
    - rewrite overflow_test by exact HO. reflexivity.
    - symmetry. apply orb_true_iff. destruct (Z.lt_trichotomy req 0) as [H|[H|H]]; [right|lia|left].
      + rewrite (proj2 (Z.ltb_lt _ _) H). reflexivity.
      + rewrite (proj2 (Z.ltb_lt _ _) H). apply Z.ltb_lt. nia.
  Qed.
  Lemma partial_loop_wrapped : forall over tol swap n1 n2 row col fuel req I J uu vv v1 v2 aux frob, cost_test_wrap 1 n1 n2 = Some true -> 1 <= n1 -> 1 <= n2 -> req <> 0%Z ->
    partial_loop_m X cost_test_wrap over tol swap n1 n2 row col (S fuel) req I J 0 uu vv v1 v2 aux frob = Some (mkAca X (-1) uu vv).
  Proof.
    intros over tol swap n1 n2 row col fuel req I J uu vv v1 v2 aux frob HO H1 H2 Hr. cbn [partial_loop_m].
    replace (((0 <? req)%Z && (Z.of_nat 0 <? Z.min req (Z.min (Z.of_nat n1) (Z.of_nat n2)))%Z) || ((req <? 0)%Z && ((0 =? 0) || over aux frob))) with true.
    - rewrite HO. reflexivity.
    - symmetry. apply orb_true_iff. destruct (Z.lt_trichotomy req 0) as [H|[H|H]]; [right|lia|left].
      + rewrite (proj2 (Z.ltb_lt _ _) H). reflexivity.
      + rewrite (proj2 (Z.ltb_lt _ _) H). apply Z.ltb_lt. lia.
  Qed.
  Lemma trunc_loop_le : forall small s norm j e r, trunc_loop X small s norm e j = Some r -> r <= j.
  Proof.
    intros small s norm. induction j as [|j IH]; intros e r H; cbn [trunc_loop] in H; [congruence || (injection H as <-; lia)|].
    repeat match type of H with context [if ?b then _ else _] => destruct b end; try discriminate; try (injection H as <-; lia); apply IH in H; lia.
  Qed.
End Loops.

(** ** Counters *)
Lemma child_counter_model : forall sorter strat P fuel s t loc u p k, cluster_tree sorter strat P fuel = Some (s, t, loc) -> processed P t u -> nth_error (ct_children u) p = Some k ->
  p < current_nc P (ct_info u) /\ ci_counter (ct_info k) = if on_level P (ct_info u) then ci_counter (ct_info u) * level_children P + p else ci_counter (ct_info u) * current_nc P (ct_info u) + p.
Proof.
  intros sorter strat P fuel s t loc u p k H Hu Hk. destruct (final_steps sorter strat P fuel s t loc u H Hu) as (st0 & st1 & E). destruct (step_links _ _ _ _ _ _ _ E) as (perm & spl & Hs & Ek & _).
  assert (Hp : p < length (ct_children u)) by (apply nth_error_Some; congruence). split.
  - destruct (final_nb_children sorter strat P fuel s t loc u H Hu) as [Q|Q]; [rewrite Q in Hp; cbn in Hp; lia|lia].
  - apply (map_nth_error ct_info) in Hk. rewrite Ek in Hk. destruct (nth_error spl p) as [os|] eqn:Eo.
    + rewrite (child_infos_nth _ _ _ _ 0 _ _ Eo) in Hk. injection Hk as <-. destruct os as [o z]. cbn [child_info ci_counter plus]. reflexivity.
    + apply nth_error_None in Eo. assert (nth_error (child_infos P (ct_info u) perm 0 spl) p <> None) by congruence. apply nth_error_Some in H0. rewrite child_infos_length in H0. lia.
Qed.

Section Counters.
  Variable P : bparams.
  Hypothesis Hsp : 1 <= bp_sp P.
  Hypothesis Hlog : bp_given P = None -> bp_nc P <= bp_sp P -> 1 <= bp_logdepth P /\ bp_nc P ^ bp_logdepth P <= bp_sp P.
  Hypothesis Hnc : 2 <= bp_nc P.

  Definition cbound (c : cinfo) : Prop :=
    if ci_depth c <? part_depth P then ci_counter c < bp_nc P ^ ci_depth c else ci_counter c < bp_sp P * bp_nc P ^ (ci_depth c - part_depth P).

  Lemma on_level_nc : forall c, on_level P c = true -> cbound c -> forall p, p < current_nc P c ->
    ci_counter c * level_children P + p < bp_sp P /\ ci_counter c * current_nc P c + p < bp_sp P * bp_sp P.
  Proof.
    intros c Ho Hc p Hp. assert (Hg : bp_given P = None) by (unfold on_level in Ho; destruct (bp_given P); [discriminate|reflexivity]).
    unfold on_level in Ho. rewrite Hg in Ho. apply Nat.eqb_eq in Ho. unfold cbound in Hc. rewrite (proj2 (Nat.ltb_lt _ _)) in Hc by lia.
    unfold current_nc, on_level in *. rewrite Hg in *. rewrite (proj2 (Nat.eqb_eq _ _) Ho) in *. unfold level_children, additional, part_depth in *. rewrite Hg in *.
    destruct (Nat.leb_spec (bp_nc P) (bp_sp P)) as [L|L].
    - destruct (Hlog eq_refl L) as [L1 L2]. rewrite <- Ho in L2 |- *. rewrite <- Ho in Hp. rewrite Nat.pow_succ_r' in *. set (x := bp_nc P ^ ci_depth c) in *. clearbody x.
      destruct (Nat.eqb_spec (ci_counter c) (x - 1)) as [Q|Q].
      + rewrite Q in *. destruct x as [|x]; [lia|]. cbn [Nat.sub] in *. rewrite Nat.sub_0_r in *. split; [nia|]. assert (bp_nc P + (bp_sp P - bp_nc P * S x) <= bp_sp P) by nia. assert (S x <= bp_sp P) by nia. nia.
      + split; [nia|]. assert (x <= bp_sp P) by nia. nia.
    - replace (ci_depth c) with 0 in * by lia. cbn [Nat.pow] in *. assert (Hp' : p < bp_sp P) by (destruct (_ =? _) in Hp; lia). assert (E0 : ci_counter c = 0) by lia. rewrite E0. cbn [Nat.mul plus]. split; [exact Hp'|nia].
  Qed.
  Lemma cbound_child : forall c k p, cbound c -> p < current_nc P c -> ci_depth k = S (ci_depth c) -> (bp_given P <> None -> part_depth P <= ci_depth c) ->
    ci_counter k = (if on_level P c then ci_counter c * level_children P + p else ci_counter c * current_nc P c + p) -> cbound k.
  Proof.
    intros c k p Hc Hp Hd Hg Hk. destruct (on_level P c) eqn:Ho.
    - destruct (on_level_nc c Ho Hc p Hp) as [Q _]. unfold on_level in Ho. destruct (bp_given P); [discriminate|]. apply Nat.eqb_eq in Ho. unfold cbound. rewrite Hd, Ho, Nat.ltb_irrefl, Nat.sub_diag. cbn [Nat.pow]. lia.
    - assert (En : current_nc P c = bp_nc P) by (unfold current_nc; rewrite Ho; reflexivity). rewrite En in *. unfold cbound in *. rewrite Hd.
      assert (Hne : S (ci_depth c) <> part_depth P \/ part_depth P <= ci_depth c).
      { unfold on_level in Ho. destruct (bp_given P) eqn:Eg; [right; apply Hg; discriminate|]. apply Nat.eqb_neq in Ho. auto. }
      destruct (Nat.ltb_spec (ci_depth c) (part_depth P)) as [L|L]; destruct (Nat.ltb_spec (S (ci_depth c)) (part_depth P)) as [L'|L']; try lia.
      + cbn [Nat.pow]. nia.
      + replace (S (ci_depth c) - part_depth P) with (S (ci_depth c - part_depth P)) by lia. cbn [Nat.pow]. nia.
  Qed.

  Lemma cbound_down : forall sorter strat fuel s t loc w, cluster_tree sorter strat P fuel = Some (s, t, loc) -> cbound (ct_info w) -> (forall u, In u (ct_nodes w) -> processed P t u) ->
    (forall u, In u (ct_nodes w) -> depth_ok u) -> (bp_given P <> None -> part_depth P <= ci_depth (ct_info w)) -> forall u, In u (ct_nodes w) -> cbound (ct_info u).
  Proof.
    intros sorter strat fuel s t loc w H. induction w as [c ts IH] using ctree_ind'. intros Hc Hp Hd Hg u Hu. destruct (In_nodes_inv _ _ _ Hu) as [->|(k & Hk & Hu')]; [exact Hc|].
    pose proof (In_nth_error _ _ Hk) as (p & Ep). pose proof (Hd _ (In_nodes_root _) k Hk) as Dk. cbn [ct_info] in *.
    destruct (child_counter_model sorter strat P fuel s t loc (CNode c ts) p k H (Hp _ (In_nodes_root _)) Ep) as [Q1 Q2]. cbn [ct_info] in *.
    apply (IH k Hk) with (u := u); [|intros v Hv; apply Hp; eapply In_nodes_child; eauto|intros v Hv; apply Hd; eapply In_nodes_child; eauto| |exact Hu'].
    - exact (cbound_child c (ct_info k) p Hc Q1 Dk Hg Q2).
    - intros Q. specialize (Hg Q). lia.
  Qed.
  Lemma all_counters : forall sorter strat fuel s t loc, (forall part, bp_given P = Some part -> length part = bp_sp P) -> cluster_tree sorter strat P fuel = Some (s, t, loc) ->
    forall u, processed P t u -> cbound (ct_info u).
  Proof.
    intros sorter strat fuel s t loc HL H u Hu. destruct (final_depth_ok _ _ _ _ _ _ _ H) as [Hr Hd]. unfold processed in Hu. case_eq (bp_given P); [intros part Hg|intros Hg]; rewrite Hg in Hu.
    - destruct Hu as (k & Hk & Hu). destruct (given_inv _ _ _ _ _ _ _ _ Hg H) as (ts & Hb & -> & _). cbn [ct_children] in Hk. pose proof (build_list_info _ _ _ _ _ _ _ _ Hb) as Ei.
      apply In_nth_error in Hk. destruct Hk as (i & Hi). pose proof (map_nth_error ct_info _ _ Hi) as Hi'. rewrite Ei in Hi'.
      assert (Hlt : i < length part) by (rewrite <- (given_children_length P part 0), <- Ei, map_length; apply nth_error_Some; congruence).
      destruct (nth_error part i) as [os|] eqn:Eo; [|apply nth_error_None in Eo; lia]. rewrite (given_children_nth P part 0 i os Eo) in Hi'. injection Hi' as Ek.
      apply (cbound_down sorter strat fuel s (CNode (root_info P) ts) loc k H) with (u := u).
      + unfold cbound, part_depth. rewrite Hg, <- Ek. cbn. specialize (HL part Hg). lia.
      + intros v Hv. unfold processed. rewrite Hg. exists k. split; [eapply nth_error_In; exact Hi|exact Hv].
      + intros v Hv. apply Hd. eapply In_nodes_child; [eapply nth_error_In; exact Hi|exact Hv].
      + intros _. unfold part_depth. rewrite Hg, <- Ek. cbn. lia.
      + exact Hu.
    - apply (cbound_down sorter strat fuel s t loc t H) with (u := u); [|intros v Hv; unfold processed; rewrite Hg; exact Hv|exact Hd|congruence|exact Hu].
      rewrite Hr. unfold cbound. cbn [ci_depth ci_counter root_info Nat.pow]. destruct (_ <? _); [lia|]. pose proof (Nat.pow_nonzero (bp_nc P) (0 - part_depth P)). nia.
  Qed.
End Counters.
