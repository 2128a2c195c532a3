(** * Proofs about the extraction of the diagonal. *)

From Coq Require Import List Arith ZArith Bool Lia Ring Permutation.
From Verif Require Import ClusterModel ClusterSpec ClusterProofs ClusterPartition ClusterMore ClusterFinal IOModel IOSpec IOProofs BlockModel BlockSpec BlockProofs BlockFinal BlockSym Algebra BlasModel BlasProofs
  HMatModel HMatSpec HMatProofs HMatLoops HMatProducts HMatBuild HMatTop DiagModel DiagSpec.
Import ListNotations.

Section D.
  Variable K : Coef.
  Notation C := (car K).
  Add Ring KringD : (c_ring K).
  Notation on_diagonal := (on_diagonal K).

  Section Loop.
    Variables (off n : nat) (pos : nat -> nat) (len : nat).
    Let inR d := off <= d < off + n.
    Hypothesis pos_in : forall d, inR d -> pos d < len.
    Hypothesis pos_inj : forall d d', inR d -> inR d' -> pos d = pos d' -> d = d'.

    Lemma write_run : forall o (v : nat -> C) m k0 b, length b = len -> (forall k, k0 <= k < k0 + m -> inR (k + o)) ->
      exists b', fold_opt K (fun k b => set1 K (pos (k + o)) (v k) b) (seq k0 m) b = Some b' /\ length b' = len /\
        (forall k, k0 <= k < k0 + m -> get b' (pos (k + o)) = v k) /\
        (forall p, (forall k, k0 <= k < k0 + m -> p <> pos (k + o)) -> get b' p = get b p).
    Proof.
      intros o v m. induction m as [|m IH]; intros k0 b Lb Hin.
      - exists b. split; [reflexivity|]. split; [exact Lb|]. split; [lia|auto].
      - cbn [seq fold_opt]. destruct (set1_ok K (pos (k0 + o)) (v k0) b) as (b1 & E1 & L1 & G1); [rewrite Lb; apply pos_in, Hin; lia|]. rewrite E1.
        destruct (IH (S k0) b1 ltac:(lia)) as (b2 & E2 & L2 & G2 & G3); [intros k Hk; apply Hin; lia|]. exists b2. split; [exact E2|]. split; [exact L2|]. split.
        + intros k Hk. destruct (Nat.eq_dec k k0) as [->|NE]; [|apply G2; lia]. rewrite G3.
          * rewrite G1, Nat.eqb_refl. reflexivity.
          * intros k' Hk' E. apply pos_inj in E; [lia| |]; apply Hin; lia.
        + intros p Hp. rewrite G3 by (intros k Hk; apply Hp; lia). rewrite G1. destruct (Nat.eqb_spec p (pos (k0 + o))) as [->|]; [|reflexivity]. exfalso. apply (Hp k0); [lia|reflexivity].
    Qed.

    Variable M : nat -> nat -> C.
    Variable equal : hinfo K -> bool.
    (** What the loop needs about a leaf. *)
    Definition fine (h : hinfo K) : Prop :=
      (equal h = true <-> c_off (h_t h) = c_off (h_s h)) /\ wf_leaf h /\ off <= c_off (h_t h) /\ c_off (h_t h) + c_size (h_t h) <= off + n /\
      (forall i j, i < c_size (h_t h) -> j < c_size (h_s h) -> leaf_entry h i j = M (c_off (h_t h) + i) (c_off (h_s h) + j)) /\ on_diagonal h.

    Lemma covers_iff : forall d (h : hinfo K), hcovers d d h = true <-> (c_off (h_t h) <= d < c_off (h_t h) + c_size (h_t h)) /\ (c_off (h_s h) <= d < c_off (h_s h) + c_size (h_s h)).
    Proof. intros d h. unfold hcovers. rewrite andb_true_iff, !in_ivb. reflexivity. Qed.

    Lemma source_ok : forall h, wf_leaf h -> (forall L, h_data h = DLow L -> c_size (h_t h) = c_size (h_s h) /\ lrank L <> 0) ->
      exists D, diag_source K h = Some (Some D) /\ forall k, k < c_size (h_t h) -> k < c_size (h_s h) -> me D k k = leaf_entry h k k.
    Proof.
      intros h W HL. destruct (h_data h) as [|A|L] eqn:Ed.
      - destruct W as (_ & _ & W). rewrite Ed in W. contradiction.
      - exists A. unfold diag_source. rewrite Ed. split; [reflexivity|]. intros k H1 H2. unfold leaf_entry. rewrite Ed. destruct W as (_ & _ & W). rewrite Ed in W.
        destruct W as (_ & _ & W). unfold from_triangle. destruct (h_sym h) eqn:Es; [reflexivity| | |reflexivity]; destruct (in_triangle (h_uplo h) k k); try reflexivity.
        symmetry. apply W; [reflexivity|exact H1].
      - destruct (HL L eq_refl) as [E HR]. destruct (leaf_dense_ok K h W) as (D & E1 & E2); [unfold dense_ready; rewrite Ed; exact HR|].
        exists D. unfold diag_source. unfold leaf_dense in E1. rewrite Ed in *. rewrite <- E. rewrite <- E in E1. rewrite E1. split; [reflexivity|]. intros k H1 H2. apply E2; lia.
    Qed.

    Lemma leaf_step : forall h b, fine h -> length b = len ->
      exists b', diag_leaf K (equal h) pos h b = Some b' /\ length b' = len /\
        (forall d, hcovers d d h = true -> get b' (pos d) = M d d) /\
        (forall p, (forall d, inR d -> hcovers d d h = true -> p <> pos d) -> get b' p = get b p).
    Proof.
      intros h b (F1 & F2 & F3 & F4 & F5 & F6) Lb. unfold diag_leaf. destruct (equal h) eqn:Eq.
      - assert (Eo : c_off (h_t h) = c_off (h_s h)) by (apply F1; reflexivity).
        assert (Hc : hcovers (c_off (h_t h)) (c_off (h_t h)) h = true) by (apply covers_iff; destruct F2 as (P1 & P2 & _); lia).
        destruct (F6 _ Hc) as [_ Q]. destruct (source_ok h F2) as (D & ED & VD); [intros L E; rewrite E in Q; exact Q|]. rewrite ED.
        destruct (write_run (c_off (h_t h)) (fun k => me D k k) (Nat.min (c_size (h_t h)) (c_size (h_s h))) 0 b Lb) as (b' & E1 & E2 & E3 & E4); [intros k Hk; unfold inR; lia|].
        exists b'. split; [exact E1|]. split; [exact E2|]. split.
        + intros d Hd. apply covers_iff in Hd. specialize (E3 (d - c_off (h_t h)) ltac:(lia)). replace (d - c_off (h_t h) + c_off (h_t h)) with d in E3 by lia. rewrite E3.
          rewrite VD by lia. rewrite F5 by lia. f_equal; lia.
        + intros p Hp. apply E4. intros k Hk. apply Hp; [unfold inR; lia|apply covers_iff; lia].
      - exists b. split; [reflexivity|]. split; [exact Lb|]. split; [|auto]. intros d Hd. exfalso. destruct (F6 d Hd) as [Q _]. apply F1 in Q. congruence.
    Qed.

    Lemma loop_ok : forall L b, (forall h, In h L -> fine h) -> length b = len ->
      (forall d h h', In h L -> In h' L -> hcovers d d h = true -> hcovers d d h' = true -> h = h') ->
      exists b', fold_opt K (fun h => diag_leaf K (equal h) pos h) L b = Some b' /\ length b' = len /\
        (forall d, (exists h, In h L /\ hcovers d d h = true) -> get b' (pos d) = M d d) /\
        (forall p, (forall d, inR d -> (exists h, In h L /\ hcovers d d h = true) -> p <> pos d) -> get b' p = get b p).
    Proof.
      induction L as [|h L IH]; intros b HF Lb HU.
      - exists b. split; [reflexivity|]. split; [exact Lb|]. split; [intros d (h & [] & _)|auto].
      - cbn [fold_opt]. destruct (leaf_step h b (HF h (or_introl eq_refl)) Lb) as (b1 & E1 & E2 & E3 & E4). rewrite E1.
        destruct (IH b1 (fun h' Hh => HF h' (or_intror Hh)) E2) as (b2 & G1 & G2 & G3 & G4); [intros d x y Hx Hy; apply HU; right; assumption|].
        exists b2. split; [exact G1|]. split; [exact G2|]. split.
        + intros d (x & [<-|Hx] & Hd); [|apply G3; exists x; auto].
          (* decide whether a later leaf covers d: it would be the same leaf *)
          destruct (existsb (hcovers d d) L) eqn:Ex.
          * apply existsb_exists in Ex. destruct Ex as (x & Hx & Hd'). apply G3. exists x. auto.
          * rewrite G4; [apply E3, Hd|]. intros d' Hd' (x & Hx & Hc) E.
            assert (d = d').
            { apply pos_inj; [|exact Hd'|exact E]. destruct (HF h (or_introl eq_refl)) as (_ & _ & P1 & P2 & _). apply covers_iff in Hd. unfold inR. lia. }
            subst d'. assert (existsb (hcovers d d) L = true) by (apply existsb_exists; exists x; auto). congruence.
        + intros p Hp. rewrite G4.
          * apply E4. intros d Hd Hc. apply Hp; [exact Hd|]. exists h. split; [left; reflexivity|exact Hc].
          * intros d Hd (x & Hx & Hc). apply Hp; [exact Hd|]. exists x. split; [right; exact Hx|exact Hc].
    Qed.
  End Loop.

  Section Top.
    Variables (A : hmat K) (L Y : list (hinfo K)) (sy : symc) (M : nat -> nat -> C).
    Let r := rt_val A.
    Hypothesis HA : hleaves K A = Some (L, Y).
    Hypothesis H : holds_matrix r L Y sy M.
    Hypothesis Hsq : c_off (h_t r) = c_off (h_s r) /\ c_size (h_t r) = c_size (h_s r).
    Hypothesis Hdiag : forall h, In h L -> on_diagonal h.

    Lemma diag_in_L : forall d, c_off (h_t r) <= d < c_off (h_t r) + c_size (h_t r) -> exists h, In h L /\ hcovers d d h = true.
    Proof.
      intros d Hd. destruct Hsq as [S1 S2]. assert (O := wf_once _ _ _ _ _ (hm_wf _ _ _ _ _ _ H) d d). rewrite !in_ivb in O. specialize (O ltac:(lia) ltac:(lia)).
      destruct (find (hcovers d d) L) as [h|] eqn:E; [apply find_some in E; exists h; exact E|].
      destruct (find (hcovers d d) Y) as [h|] eqn:E2.
      - apply find_some in E2. destruct E2 as [Hh Hc]. exists h. split; [apply (wf_sub _ _ _ _ _ (hm_wf _ _ _ _ _ _ H) h Hh)|exact Hc].
      - exfalso. assert (Z : forall l, find (hcovers d d) l = None -> count (hcovers (K:=K) d d) l = 0).
        { intros l. unfold count. induction l as [|a l IH]; [reflexivity|]. cbn. destruct (hcovers d d a); [discriminate|]. exact IH. }
        rewrite (Z _ E), (Z _ E2) in O. lia.
    Qed.
    Lemma diag_unique : forall d h h', In h L -> In h' L -> hcovers d d h = true -> hcovers d d h' = true -> h = h'.
    Proof.
      intros d h h' Hh Hh' Hc Hc'. destruct Hsq as [S1 S2]. apply (count_one_eq (hcovers d d) L); try assumption.
      pose proof (wf_in _ _ _ _ _ (hm_wf _ _ _ _ _ _ H) h Hh) as [I1 I2]. apply contains_iff in I1, I2.
      assert (Hd := Hc). apply covers_iff in Hd.
      assert (O := wf_once _ _ _ _ _ (hm_wf _ _ _ _ _ _ H) d d). rewrite !in_ivb in O. specialize (O ltac:(lia) ltac:(lia)). lia.
    Qed.
    Lemma leaf_fine : forall equal, (forall h, In h L -> equal h = true <-> c_off (h_t h) = c_off (h_s h)) ->
      forall h, In h L -> fine (c_off (h_t r)) (c_size (h_t r)) M equal h.
    Proof.
      intros equal He h Hh. split; [apply He, Hh|]. split; [apply (wf_leaves _ _ _ _ _ (hm_wf _ _ _ _ _ _ H) h Hh)|].
      pose proof (wf_in _ _ _ _ _ (hm_wf _ _ _ _ _ _ H) h Hh) as [I1 I2]. apply contains_iff in I1. split; [lia|]. split; [lia|].
      split; [apply (hm_entries _ _ _ _ _ _ H h Hh)|apply Hdiag, Hh].
    Qed.

    Theorem diagonal_ok : forall b, c_size (h_t r) <= length b ->
      exists b', copy_diagonal K A b = Some b' /\ length b' = length b /\
        (forall k, k < c_size (h_t r) -> get b' k = M (c_off (h_t r) + k) (c_off (h_t r) + k)) /\
        (forall p, c_size (h_t r) <= p -> get b' p = get b p).
    Proof.
      intros b Hb. unfold copy_diagonal. fold r. rewrite HA.
      destruct (loop_ok (c_off (h_t r)) (c_size (h_t r)) (fun i => i - c_off (h_t r)) (length b)) with (M := M)
        (equal := fun h : hinfo K => c_off (h_t h) - c_off (h_t r) =? c_off (h_s h) - c_off (h_s r)) (L := L) (b := b) as (b' & E1 & E2 & E3 & E4).
      - intros d Hd. lia.
      - intros d d' Hd Hd'. lia.
      - apply leaf_fine. intros h Hh. rewrite Nat.eqb_eq. pose proof (wf_in _ _ _ _ _ (hm_wf _ _ _ _ _ _ H) h Hh) as [I1 I2]. apply contains_iff in I1, I2. lia.
      - reflexivity.
      - apply diag_unique.
      - exists b'. split; [exact E1|]. split; [exact E2|]. split.
        + intros k Hk. specialize (E3 (c_off (h_t r) + k) (diag_in_L (c_off (h_t r) + k) ltac:(lia))). replace (c_off (h_t r) + k - c_off (h_t r)) with k in E3 by lia. exact E3.
        + intros p Hp. apply E4. intros d Hd _. lia.
    Qed.

    Variable tp : nat -> nat.
    Let inT i := c_off (h_t r) <= i < c_off (h_t r) + c_size (h_t r).
    Hypothesis tp_in : forall i, inT i -> inT (tp i).
    Hypothesis tp_inj : forall i i', inT i -> inT i' -> tp i = tp i' -> i = i'.
    Theorem diagonal_user_ok : forall b, c_size (h_t r) <= length b ->
      exists b', copy_diagonal_in_user_numbering K tp A b = Some b' /\ length b' = length b /\
        (forall i, inT i -> get b' (tp i - c_off (h_t r)) = M i i) /\
        (forall p, c_size (h_t r) <= p -> get b' p = get b p).
    Proof.
      intros b Hb. unfold copy_diagonal_in_user_numbering. fold r. rewrite HA.
      destruct (loop_ok (c_off (h_t r)) (c_size (h_t r)) (fun i => tp i - c_off (h_t r)) (length b)) with (M := M)
        (equal := fun h : hinfo K => c_off (h_t h) =? c_off (h_s h)) (L := L) (b := b) as (b' & E1 & E2 & E3 & E4).
      - intros d Hd. pose proof (tp_in d Hd). unfold inT in *. lia.
      - intros d d' Hd Hd' E. apply tp_inj; [exact Hd|exact Hd'|]. pose proof (tp_in d Hd). pose proof (tp_in d' Hd'). unfold inT in *. lia.
      - apply leaf_fine. intros h Hh. apply Nat.eqb_eq.
      - reflexivity.
      - apply diag_unique.
      - exists b'. split; [exact E1|]. split; [exact E2|]. split.
        + intros i Hi. apply E3, diag_in_L, Hi.
        + intros p Hp. apply E4. intros d Hd _. pose proof (tp_in d Hd). unfold inT in *. lia.
    Qed.
  End Top.

  (** ** Built matrices *)
  Lemma nodes_inside : forall T : ctree, (forall u, In u (ct_nodes T) -> node_ok u) -> forall v, In v (ct_nodes T) -> c_off T <= c_off v /\ c_off v + c_size v <= c_off T + c_size T.
  Proof.
    intros T. induction T as [c ts IH] using ctree_ind'. intros HN v Hv. destruct (In_nodes_inv _ _ _ Hv) as [->|(k & Hk & Hv')]; [lia|].
    specialize (IH k Hk (fun u Hu => HN u (In_nodes_child _ _ _ _ Hk Hu)) v Hv').
    destruct (HN (CNode c ts) (In_nodes_root _)) as [E|Tl]; [cbn in E; subst ts; contradiction|]. cbn [ct_children] in Tl.
    pose proof (tiles_in _ _ _ _ Tl Hk) as Q. change (ci_off (ct_info (CNode c ts))) with (c_off (CNode c ts)) in Q. change (ci_size (ct_info (CNode c ts))) with (c_size (CNode c ts)) in Q. lia.
  Qed.
  (** Two leaf clusters of a tree that share an index are the same. *)
  Lemma leaves_equal : forall T : ctree, (forall u, In u (ct_nodes T) -> node_ok u) -> forall u v d, In u (ct_nodes T) -> In v (ct_nodes T) ->
    ct_children u = [] -> ct_children v = [] -> c_off u <= d < c_off u + c_size u -> c_off v <= d < c_off v + c_size v -> u = v.
  Proof.
    intros T. induction T as [c ts IH] using ctree_ind'. intros HN u v d Hu Hv Eu Ev Du Dv.
    destruct (In_nodes_inv _ _ _ Hu) as [->|(k & Hk & Hu')], (In_nodes_inv _ _ _ Hv) as [->|(k' & Hk' & Hv')].
    - reflexivity.
    - cbn in Eu. subst ts. contradiction.
    - cbn in Ev. subst ts. contradiction.
    - assert (HNk : forall k, In k ts -> forall w, In w (ct_nodes k) -> node_ok w) by (intros k0 Hk0 w Hw; apply HN; eapply In_nodes_child; eassumption).
      destruct (HN (CNode c ts) (In_nodes_root _)) as [E|Tl]; [cbn in E; subst ts; contradiction|]. cbn [ct_children] in Tl.
      pose proof (nodes_inside k (HNk k Hk) u Hu'). pose proof (nodes_inside k' (HNk k' Hk') v Hv').
      destruct (tiles_pair _ _ _ k k' Tl Hk Hk') as [->|Dj]; [apply (IH k' Hk' (HNk k' Hk') u v d); assumption|]. unfold disj in Dj. lia.
  Qed.

  Section Built.
    Variables (sy : symc) (B : bbuild) (gen : nat -> nat -> C) (compress : ctree -> ctree -> lrm K) (T : ctree).
    Hypothesis HT : partitioned T (bb_tparts B).
    Hypothesis HS : partitioned T (bb_sparts B).
    Hypothesis HV : part_valid B T.
    Hypothesis Hrem : removed B T T = false.
    (** The admissibility condition refuses two different clusters that share an index. *)
    Hypothesis Hadm : forall t s, In t (ct_nodes T) -> In s (ct_nodes T) -> bb_adm B t s = true -> t = s \/ disj t s.
    Hypothesis Hrank : forall t s, mr (lU (compress t s)) = c_size t -> mc (lV (compress t s)) = c_size s -> lrank (compress t s) <> 0.

    Lemma final_task_facts : forall root, final_root B T T root -> forall u, In u (preorder root) -> b_task (rt_val u) <> None -> node_facts B T T u.
    Proof.
      intros root HR v Hv Hk. destruct HR as [fuel Hi HB|fuel root0 p u cs f Ep Eu HB Hi Hreset ->].
      - destruct (build_facts B T T HT HS fuel T T root (tN_root T) (sN_root T) (root_t_ok B T HT HV) HB) as (_ & _ & F). apply F, Hv.
      - rewrite preorder_eq in Hv. destruct Hv as [<-|Hv]; [cbn in Hk; congruence|]. cbn [rt_children] in Hv.
        apply in_concat in Hv. destruct Hv as (x & Hx & Hv). apply in_map_iff in Hx. destruct Hx as (c & <- & Hc).
        pose proof (reset_Col B T T HT HS p f root0 cs Ep (Sta_root B T T HT HV Hrem Hi fuel root0 HB) Hreset c Hc) as ((f' & A1) & A2 & A3 & A4 & A5 & _).
        destruct (build_facts B T T HT HS f' _ _ c A2 A3 A4 A1) as (_ & _ & F). apply F, Hv.
    Qed.

    Lemma built_on_diagonal : forall fuel root x, build_root B fuel T T = Some root -> In x (rleaves root) -> b_task x <> None ->
      on_diagonal (hleaf K sy B gen compress x).
    Proof.
      intros fuel root x HB Hx Hk d Hd. apply covers_iff in Hd. cbn [hleaf h_t h_s h_data] in *.
      destruct (rleaves_node root x Hx) as (u & Hu & Eu & _). subst x.
      destruct (final_task_facts root (build_root_shape B T T HT HS HV fuel root HB) u Hu Hk) as (N1 & N2 & _ & _ & Q).
      set (x := rt_val u) in *.
      assert (E : b_t x = b_s x).
      { destruct (b_task x) as [k|] eqn:Ek; [|congruence]. destruct Q as (_ & Q & _).
        unfold branch in Q. destruct (low_rank_task B (b_t x) (b_s x)) eqn:El.
        - unfold low_rank_task in El. repeat (apply andb_true_iff in El; destruct El as [El ?]). destruct (Hadm (b_t x) (b_s x) N1 N2) as [E|E]; [assumption|exact E|].
          unfold disj in E. lia.
        - assert (is_leaf (b_s x) = true /\ is_leaf (b_t x) = true) as [L1 L2].
          { destruct (is_leaf (b_s x)), (is_leaf (b_t x)); cbn [andb] in Q; auto; try discriminate.
            destruct (bb_cons B).
            - destruct ((c_rank (b_t x) <? 0)%Z && (0 <=? c_rank (b_s x))%Z); [discriminate|].
              destruct ((c_rank (b_s x) <? 0)%Z && (0 <=? c_rank (b_t x))%Z); discriminate.
            - destruct (c_rank (b_t x) <? 0)%Z; [discriminate|]. destruct (c_size (b_t x) <? c_size (b_s x)); [discriminate|].
              destruct (c_size (b_s x) <? c_size (b_t x)); discriminate. }
          apply is_leaf_children in L1, L2. apply (leaves_equal T (pt_node _ _ HT) (b_t x) (b_s x) d); try assumption; lia. }
      rewrite E. split; [reflexivity|]. unfold block_data. destruct (b_task x) as [[|]|]; [|exact I|exact I].
      destruct (_ && _) eqn:Ec; [|exact I]. apply andb_true_iff in Ec. destruct Ec as [C1 C2]. apply Nat.eqb_eq in C1, C2. split; [reflexivity|].
      apply Hrank; assumption.
    Qed.
  End Built.
End D.
