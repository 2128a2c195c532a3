(** * The hierarchical matrices that HMatrixTreeBuilder builds are well formed. *)

From Coq Require Import List Arith Bool Lia Ring Permutation ZArith.
From Verif Require Import ClusterModel ClusterSpec ClusterProofs ClusterPartition ClusterMore IOModel IOSpec IOProofs BlockModel BlockSpec BlockProofs BlockFinal BlockSym Algebra BlasModel BlasProofs
  HMatModel HMatSpec HMatProofs HMatLoops HMatProducts.
Import ListNotations.

Lemma in_ivb : forall i u, in_iv i (interval u) = true <-> (c_off u <= i < c_off u + c_size u)%nat.
Proof. exact in_iff. Qed.

Section V.
  Variable K : Coef.
  Notation C := (car K).

  Lemma count_one_eq : forall {A} (f : A -> bool) l a b, count f l <= 1 -> In a l -> In b l -> f a = true -> f b = true -> a = b.
  Proof.
    intros A f l a b Hc Ha Hb Fa Fb. unfold count in Hc.
    assert (In a (filter f l)) by (apply filter_In; auto). assert (In b (filter f l)) by (apply filter_In; auto).
    destruct (filter f l) as [|x [|y m]]; cbn in *; try lia; intuition congruence.
  Qed.
  Lemma find_unique : forall {A} (f : A -> bool) l a, count f l <= 1 -> In a l -> f a = true -> find f l = Some a.
  Proof.
    intros A f l a Hc Ha Fa. destruct (find f l) as [b|] eqn:E.
    - apply find_some in E. destruct E as [Hb Fb]. f_equal. apply (count_one_eq f l); assumption.
    - pose proof (find_none _ _ E a Ha). congruence.
  Qed.
  Lemma count_pos : forall {A} (f : A -> bool) l a, In a l -> f a = true -> 1 <= count f l.
  Proof.
    intros A f l a Ha Fa. unfold count. assert (In a (filter f l)) by (apply filter_In; auto). destruct (filter f l); [contradiction|cbn; lia].
  Qed.
  Lemma find_zero : forall {A} (f : A -> bool) l, count f l = 0 -> find f l = None.
  Proof.
    intros A f l H. destruct (find f l) eqn:E; [|reflexivity]. apply find_some in E. destruct E as [H1 H2]. pose proof (count_pos f l a H1 H2). lia.
  Qed.

  Lemma value_holds : forall r L Y sy, well_formed (K:=K) r L Y sy -> holds_matrix r L Y sy (value L Y sy).
  Proof.
    intros r L Y sy W. assert (Hrep : represents L (value L Y sy)).
    { intros h Hh i j Hi Hj. destruct (wf_in _ _ _ _ _ W h Hh) as [C1 C2]. apply contains_iff in C1, C2.
      pose proof (wf_once _ _ _ _ _ W (c_off (h_t h) + i) (c_off (h_s h) + j)) as O.
      unfold value. rewrite (find_unique (hcovers (c_off (h_t h) + i) (c_off (h_s h) + j)) L h).
      - f_equal; lia.
      - rewrite <- O; [lia| |]; apply in_ivb; lia.
      - exact Hh.
      - unfold hcovers. apply andb_true_iff. split; apply in_ivb; lia. }
    constructor; [exact W|exact Hrep|].
    intros h Hh i j Hi Hj. apply in_ivb in Hi, Hj.
    destruct (wf_sub _ _ _ _ _ W h Hh) as (HL & C1 & C2). apply contains_iff in C1, C2.
    destruct (wf_in _ _ _ _ _ W h HL) as [C3 C4]. apply contains_iff in C3, C4.
    assert (E : value L Y sy i j = leaf_entry h (i - c_off (h_t h)) (j - c_off (h_s h))).
    { rewrite (Hrep h HL (i - c_off (h_t h)) (j - c_off (h_s h))) by lia. f_equal; lia. }
    rewrite E. unfold value.
    assert (F : hcovers i j h = true) by (unfold hcovers; apply andb_true_iff; split; apply in_ivb; lia).
    pose proof (wf_once _ _ _ _ _ W j i) as O. pose proof (count_pos (hcovers i j) Y h Hh F) as Q.
    assert (Q1 : count (hcovers j i) L + count (hcovers i j) Y = 1) by (apply O; apply in_ivb; lia).
    rewrite (find_zero (hcovers j i) L) by lia. rewrite (find_unique (hcovers i j) Y h); [reflexivity|lia|exact Hh|exact F].
  Qed.

  (** any matrix held by the leaves is the represented one *)
  Lemma holds_value : forall r L Y sy M, holds_matrix (K:=K) r L Y sy M ->
    forall i j, in_iv i (interval (h_t r)) = true -> in_iv j (interval (h_s r)) = true -> value L Y sy i j = M i j.
  Proof.
    intros r L Y sy M H i j Hi Hj. pose proof (wf_once _ _ _ _ _ (hm_wf _ _ _ _ _ _ H) i j Hi Hj) as O. unfold value.
    destruct (find (hcovers i j) L) as [h|] eqn:E.
    - apply find_some in E. destruct E as [Hh Hc]. unfold hcovers in Hc. apply andb_true_iff in Hc. destruct Hc as [H1 H2]. apply in_ivb in H1, H2.
      rewrite (hm_entries _ _ _ _ _ _ H h Hh) by lia. f_equal; lia.
    - destruct (find (hcovers j i) Y) as [h|] eqn:E2.
      + apply find_some in E2. destruct E2 as [Hh Hc]. unfold hcovers in Hc. apply andb_true_iff in Hc. destruct Hc as [H1 H2].
        pose proof (hm_sym _ _ _ _ _ _ H h Hh j i H1 H2) as Q. apply in_ivb in H1, H2.
        destruct (wf_sub _ _ _ _ _ (hm_wf _ _ _ _ _ _ H) h Hh) as (HL & _).
        rewrite (hm_entries _ _ _ _ _ _ H h HL) by lia. rewrite Q. f_equal. f_equal; lia.
      + exfalso. unfold count in O.
        assert (forall A (f : A -> bool) l, find f l = None -> length (filter f l) = 0) as Z.
        { intros A f l Hn. induction l as [|a l IH]; [reflexivity|]. cbn in *. destruct (f a); [discriminate|]. apply IH, Hn. }
        rewrite (Z _ _ _ E), (Z _ _ _ E2) in O. lia.
  Qed.

  Section Build.
    Variable sy : symc.
    Variable B : bbuild.
    Variable gen : nat -> nat -> C.
    Variable compress : ctree -> ctree -> lrm K.
    Notation hf := (hfill K sy B gen compress).

    Definition hleaf (i : binfo) : hinfo K :=
      mkHinfo K (b_t i) (b_s i) (if b_sym i then sy else SyN) (if b_sym i then bb_uplo B else UpN) (block_data K gen compress i)
        (if b_sym i then sy else SyN) (if b_sym i then bb_uplo B else UpN).

    Lemma hfill_pre : forall b, preorder (hf b) = map (fun u => hf u) (preorder b).
    Proof.
      induction b as [i cs IH] using rtree_ind'. rewrite preorder_eq. cbn [hfill]. rewrite preorder_eq. cbn [map hfill rt_children]. f_equal.
      rewrite concat_map. f_equal. rewrite !map_map. apply map_ext_in. intros c Hc. apply IH, Hc.
    Qed.

    Lemma hleaves_run_eq : forall f stack lv ys,
      (forall p u, In p stack -> In u (preorder (fst p)) -> b_sym (rt_val u) = true -> sy <> SyN) ->
      hleaves_run K f (map (fun p => (hf (fst p), snd p)) stack) (map hleaf lv) (map hleaf ys) =
      option_map (fun q => (map hleaf (fst q), map hleaf (snd q))) (leaves_run f stack lv ys).
    Proof.
      induction f as [|f IH]; intros stack lv ys Hs.
      - destruct stack as [|[b anc] st]; reflexivity.
      - destruct stack as [|[b anc] st]; [reflexivity|]. cbn [map fst snd hleaves_run leaves_run].
        destruct b as [i cs]. cbn [rt_val rt_children hfill].
        assert (Ei : negb (sym_is_N (h_sym (mkHinfo K (b_t i) (b_s i) (if b_sym i then sy else SyN) (if b_sym i then bb_uplo B else UpN)
           (block_data K gen compress i) (if match cs with [] => b_sym i | _ => existsb (fun c => b_sym (rt_val c)) cs end then sy else SyN)
           (if match cs with [] => b_sym i | _ => existsb (fun c => b_sym (rt_val c)) cs end then bb_uplo B else UpN)))) = b_sym i).
        { cbn [h_sym]. destruct (b_sym i) eqn:E; [|reflexivity].
          assert (sy <> SyN). { apply (Hs (RNode i cs, anc) (RNode i cs)); [left; reflexivity|cbn [fst]; rewrite preorder_eq; left; reflexivity|exact E]. }
          destruct sy; [congruence| | |]; reflexivity. }
        rewrite Ei. cbn [h_t h_s]. destruct cs as [|c cs].
        + cbn [map rev app]. rewrite <- IH.
          * rewrite map_app. cbn [map]. destruct anc; [destruct (c_off (b_t i) =? c_off (b_s i))|]; cbn [negb andb]; rewrite ?map_app; reflexivity.
          * intros p u Hp. apply Hs. right; exact Hp.
        + cbn [andb]. rewrite <- IH.
          * rewrite map_app, map_rev, !map_map. cbn [map]. reflexivity.
          * intros p u Hp Hu. apply in_app_iff in Hp. destruct Hp as [Hp|Hp].
            -- apply in_rev in Hp. apply in_map_iff in Hp. destruct Hp as (d & <- & Hd). cbn [fst] in Hu.
               apply (Hs (RNode i (c :: cs), anc) u); [left; reflexivity|]. cbn [fst]. rewrite preorder_eq. right. cbn [rt_children]. apply in_concat.
               exists (preorder d). split; [apply in_map, Hd|exact Hu].
            -- apply (Hs p u); [right; exact Hp|exact Hu].
    Qed.

    Lemma hleaves_eq : forall b, (forall u, In u (preorder b) -> b_sym (rt_val u) = true -> sy <> SyN) ->
      hleaves K (hf b) = option_map (fun q => (map hleaf (fst q), map hleaf (snd q))) (get_leaves_from (length (preorder b)) b).
    Proof.
      intros b Hb. unfold hleaves, get_leaves_from. rewrite <- hleaves_run_eq.
      - cbn [map fst snd]. rewrite hfill_pre, map_length.
        assert (E : negb (sym_is_N (h_sym (rt_val (hf b)))) = b_sym (rt_val b)); [|rewrite E; reflexivity].
        destruct b as [i cs]. cbn. destruct (b_sym i) eqn:E; [|reflexivity].
        assert (sy <> SyN) by (apply (Hb (RNode i cs)); [rewrite preorder_eq; left; reflexivity|exact E]). destruct sy; [congruence| | |]; reflexivity.
      - intros p u [<-|[]] Hu. apply Hb, Hu.
    Qed.

    (** Contract of the low-rank generator: U and V are matrices with a common dimension. *)
    Definition compress_ok : Prop := forall t s, wf_mat (lU (compress t s)) (mr (lU (compress t s))) (lrank (compress t s)) /\
      wf_mat (lV (compress t s)) (lrank (compress t s)) (mc (lV (compress t s))).
    (** A Hermitian generator has a real diagonal. *)
    Definition gen_ok : Prop := sy = SyH -> forall i, cconj K (gen i i) = gen i i.

    Lemma of_fun_wf : forall r c f, wf_mat (of_fun K r c f) r c.
    Proof. intros r c f. unfold wf_mat, of_fun. cbn [mr mc md mkMat]. rewrite length_mk. auto. Qed.
    Lemma of_fun_me : forall r c f i j, i < r -> j < c -> me (of_fun K r c f) i j = f i j.
    Proof.
      intros r c f i j Hi Hj. unfold me, of_fun. cbn [md mr mkMat]. rewrite get_mk.
      destruct (Nat.ltb_spec (i + j * r) (r * c)); [|nia]. rewrite index_mod, index_div by lia. reflexivity.
    Qed.

    Hypothesis Hco : compress_ok.
    Hypothesis Hg : gen_ok.

    Lemma hleaf_wf : forall x, b_task x <> None -> 1 <= c_size (b_t x) -> 1 <= c_size (b_s x) ->
      b_sym x = has_sym B (b_t x) (b_s x) -> wf_leaf (hleaf x) /\ (h_sym (hleaf x) = SyN \/ h_sym (hleaf x) = sy).
    Proof.
      intros x Ht S1 S2 Hs. split; [|cbn; destruct (b_sym x); auto].
      unfold wf_leaf, hleaf. cbn [h_t h_s h_data h_sym]. split; [exact S1|]. split; [exact S2|]. unfold block_data.
      assert (D : wf_mat (dense_data K gen (b_t x) (b_s x)) (c_size (b_t x)) (c_size (b_s x)) /\
        ((if b_sym x then sy else SyN) <> SyN -> c_size (b_t x) = c_size (b_s x)) /\
        ((if b_sym x then sy else SyN) = SyH -> forall i, i < c_size (b_t x) -> cconj K (me (dense_data K gen (b_t x) (b_s x)) i i) = me (dense_data K gen (b_t x) (b_s x)) i i)).
      { assert (Q : b_sym x = true -> c_off (b_t x) = c_off (b_s x) /\ c_size (b_t x) = c_size (b_s x)).
        { intros E. rewrite Hs in E. unfold has_sym in E. destruct (bb_uplo B); [discriminate| |];
            apply andb_true_iff in E; destruct E as [E1 E2]; apply Nat.eqb_eq in E1, E2; auto. }
        split; [apply of_fun_wf|]. split.
        - intros H. destruct (b_sym x); [apply Q; reflexivity|congruence].
        - intros H i Hi. destruct (b_sym x); [|discriminate]. destruct (Q eq_refl) as [Q1 Q2]. unfold dense_data.
          rewrite of_fun_me by lia. rewrite <- Q1. apply Hg, H. }
      destruct (b_task x) as [[|]|]; [|exact D|congruence].
      destruct (_ && _) eqn:E; [|exact D]. apply andb_true_iff in E. destruct E as [E1 E2]. apply Nat.eqb_eq in E1, E2.
      destruct (Hco (b_t x) (b_s x)) as [W1 W2]. rewrite E1 in W1. rewrite E2 in W2. split; assumption.
    Qed.

    Lemma count_hleaf : forall i j l, count (hcovers i j) (map hleaf l) = count (covers i j) l.
    Proof.
      intros i j l. unfold count. induction l as [|x l IH]; [reflexivity|]. cbn [map filter].
      change (hcovers i j (hleaf x)) with (covers i j x). destruct (covers i j x); cbn [length]; rewrite IH; reflexivity.
    Qed.

    Lemma node_in_parts : forall T parts, partitioned T parts -> forall v, In v (ct_nodes T) ->
      c_off T <= c_off v /\ c_off v + c_size v <= c_off T + c_size T.
    Proof.
      intros T parts HT v Hv. set (B' := mkBbuild None UpN None 0 0 true (fun _ _ => true) parts parts).
      exact (node_in B' T HT T v (tN_root T) Hv).
    Qed.

    (** *** Without symmetry *)
    Theorem nosym_built : forall T S fuel root, sy = SyN -> bb_uplo B = UpN ->
      partitioned T (bb_tparts B) -> partitioned S (bb_sparts B) -> nonempty T -> nonempty S -> part_valid B T ->
      build_root B fuel T S = Some root ->
      exists L, hleaves K (hf root) = Some (L, []) /\ well_formed (rt_val (hf root)) L [] SyN /\
        (forall i, in_iv i (interval (h_t (rt_val (hf root)))) = row_in B T i) /\ h_s (rt_val (hf root)) = S /\
        (forall h, In h L -> exists x, h = hleaf x /\ In x (rleaves root) /\ b_task x <> None /\ b_sym x = has_sym B (b_t x) (b_s x) /\ (b_sym x = true -> sy <> SyN)) /\
        (rt_children (hf root) = [] \/ h_data (rt_val (hf root)) = DNone).
    Proof.
      intros T S fuel root Esy HN HT HS NT NS HV HB.
      assert (HR := build_root_shape B T S HT HS HV fuel root HB).
      assert (HSy : forall u, In u (preorder root) -> b_sym (rt_val u) = false).
      { intros u Hu. rewrite (final_sym B T S HT HS root HR HV (removed_N B HN T S) u Hu). unfold has_sym. rewrite HN. reflexivity. }
      destruct (leaves_total (length (preorder root)) root (le_n _)) as [[L Y] HL].
      destruct (nosym_main B T S HT HS NT NS HN HV fuel root _ L Y HB HL) as [-> Hc].
      assert (HP := HL). apply leaves_run_ok in HP. cbn [map concat fst snd app] in HP. rewrite !app_nil_r in HP. destruct HP as [P1 _].
      destruct (final_leaves B T S HT HS HV (removed_N B HN T S) (fun _ _ _ _ => removed_N B HN _ _) (witnessed_N B T S NT NS HN) root HR) as [_ H2].
      destruct (final_root_clusters B T S root HR) as [Es Et].
      assert (Hsub : forall x, In x L -> contains (b_t (rt_val root)) (b_t x) = true).
      { intros x Hx. pose proof (Permutation_in _ P1 Hx) as Hx'. destruct (H2 x Hx') as (k & _ & N1 & N2 & _ & Hip & _).
        destruct Et as [[_ ->]|(p & Hi & Ep & Eu)].
        - pose proof (node_in B T HT T (b_t x) (tN_root T) N1). apply contains_iff. lia.
        - unfold in_part in Hip. rewrite Ep in Hip. apply Z.eqb_eq in Hip.
          destruct (pt_below _ _ HT (b_t x) N1) as [(v & Hv & Hin) _]; [unfold c_rank in Hip; lia|].
          unfold c_rank in Hip. rewrite <- Hip, Nat2Z.id, Eu in Hv. injection Hv as <-.
          pose proof (NT (b_t x) N1) as Z1. fold (c_size (b_t x)) in Z1.
          assert (Q1 := Hin (c_off (b_t x))). assert (Q2 := Hin (c_off (b_t x) + c_size (b_t x) - 1)).
          rewrite !in_iff in Q1, Q2. apply contains_iff. specialize (Q1 ltac:(lia)). specialize (Q2 ltac:(lia)). lia. }
      assert (Hrow : forall i, in_iv i (interval (b_t (rt_val root))) = row_in B T i).
      { intros i. unfold row_in. unfold part_valid in HV. destruct Et as [[Hip Eb]|(p & Hip & Ep & Eu)].
        - rewrite Eb. destruct (in_iv i (interval T)) eqn:Hi; [|reflexivity]. cbn [andb]. destruct (bb_tpart B) as [p|] eqn:Ep; [|reflexivity].
          destruct (nth_error (bb_tparts B) p) as [u|] eqn:Eu; [|contradiction]. destruct HV as [->|[Hn _]]; [symmetry; exact Hi|].
          unfold in_part in Hip. rewrite Ep in Hip. apply Z.eqb_eq in Hip. lia.
        - rewrite Ep, Eu in HV |- *. destruct (in_iv i (interval (b_t (rt_val root)))) eqn:Hi; [|rewrite andb_false_r; reflexivity]. rewrite andb_true_r. symmetry.
          apply in_iff in Hi. apply in_iff. destruct HV as [<-|[_ HV]]; [lia|apply contains_iff in HV; lia]. }
      exists (map hleaf L). split; [|split; [|split; [|split; [|split]]]].
      - rewrite hleaves_eq by (intros u Hu E; rewrite (HSy u Hu) in E; discriminate). rewrite HL. reflexivity.
      - assert (Rt : h_t (rt_val (hf root)) = b_t (rt_val root)) by (destruct root; reflexivity).
        assert (Rs : h_s (rt_val (hf root)) = b_s (rt_val root)) by (destruct root; reflexivity).
        constructor.
        + intros h Hh. apply in_map_iff in Hh. destruct Hh as (x & <- & Hx). pose proof (Permutation_in _ P1 Hx) as Hx'.
          destruct (H2 x Hx') as (k & Ek & N1 & N2 & _).
          assert (W : wf_leaf (hleaf x) /\ (h_sym (hleaf x) = SyN \/ h_sym (hleaf x) = sy)).
          { apply hleaf_wf.
            - congruence.
            - apply (NT _ N1).
            - apply (NS _ N2).
            - destruct (rleaves_node root x Hx') as (u & Hu & <- & _). rewrite (HSy u Hu). unfold has_sym. rewrite HN. reflexivity. }
          rewrite Esy in W. exact W.
        + intros h Hh. apply in_map_iff in Hh. destruct Hh as (x & <- & Hx). rewrite Rt, Rs. cbn [hleaf h_t h_s]. split; [apply Hsub, Hx|].
          rewrite Es. pose proof (Permutation_in _ P1 Hx) as Hx'. destruct (H2 x Hx') as (k & _ & _ & N2 & _).
          pose proof (node_in_parts S _ HS (b_s x) N2) as Q. apply contains_iff. lia.
        + intros h [].
        + congruence.
        + intros i j Hi Hj. cbn [count filter length]. rewrite Nat.add_0_r, count_hleaf, Hc. rewrite Rs, Es in Hj. rewrite Hj, andb_true_r.
          rewrite Rt, Hrow in Hi. rewrite Hi. reflexivity.
      - intros i. destruct root as [ri rc]. cbn [hfill rt_val h_t]. apply Hrow.
      - destruct root as [ri rc]. cbn. cbn in Es. exact Es.
      - intros h Hh. apply in_map_iff in Hh. destruct Hh as (x & <- & Hx). pose proof (Permutation_in _ P1 Hx) as Hx'. exists x.
        split; [reflexivity|]. split; [exact Hx'|]. destruct (H2 x Hx') as (k & Ek & _). split; [congruence|].
        destruct (rleaves_node root x Hx') as (u & Hu & <- & _). rewrite (HSy u Hu). split; [|discriminate]. unfold has_sym. rewrite HN. reflexivity.
      - destruct (final_root_task B T S HT HS root HR HV) as [Q|Q]; destruct root as [i cs]; cbn [hfill rt_children rt_val h_data] in *.
        + left. rewrite Q. reflexivity.
        + right. unfold block_data. rewrite Q. reflexivity.
    Qed.

    (** *** With symmetry *)
    Theorem sym_built : forall T R fuel root, (sy = SyS \/ sy = SyH) -> bb_uplo B <> UpN ->
      partitioned T (bb_tparts B) -> bb_sparts B = bb_tparts B -> nonempty T -> bb_cons B = true ->
      ((bb_tpart B = None /\ bb_qpart B = None /\ R = T) \/
       (exists q, bb_tpart B = Some q /\ bb_qpart B = Some q /\ nth_error (bb_tparts B) q = Some R /\
          (R = T \/ ((c_rank T < 0)%Z /\ contains T R = true)))) ->
      build_root B fuel T T = Some root ->
      exists L Y, hleaves K (hf root) = Some (L, Y) /\ well_formed (rt_val (hf root)) L Y sy /\
        h_t (rt_val (hf root)) = R /\ h_s (rt_val (hf root)) = T /\
        (forall h, In h L -> exists x, h = hleaf x /\ In x (rleaves root) /\ b_task x <> None /\ b_sym x = has_sym B (b_t x) (b_s x) /\ (b_sym x = true -> sy <> SyN)) /\
        (rt_children (hf root) = [] \/ h_data (rt_val (hf root)) = DNone).
    Proof.
      intros T R fuel root Esy HU HT HP NT HC HR HB.
      assert (SyNe : sy <> SyN) by (destruct Esy; congruence).
      destruct (leaves_total (length (preorder root)) root (le_n _)) as [[L Y] HL].
      pose proof (sym_main B T HT HP NT HC R HR HU fuel root _ L Y HB HL) as Hc.
      destruct (sym_extra B T HT HP NT HC R HR HU fuel root _ L Y HB HL) as (Et & Es & HLx & HYx & Hk).
      assert (HPm := HL). apply leaves_run_ok in HPm. cbn [map concat fst snd app] in HPm. rewrite !app_nil_r in HPm. destruct HPm as [P1 _].
      assert (Rt : h_t (rt_val (hf root)) = R) by (destruct root; exact Et).
      assert (Rs : h_s (rt_val (hf root)) = T) by (destruct root; exact Es).
      assert (HV : part_valid B T).
      { unfold part_valid. destruct HR as [(-> & _)|(q & -> & _ & -> & Q)]; [exact I|exact Q]. }
      assert (HS' : partitioned T (bb_sparts B)) by (rewrite HP; exact HT).
      assert (HR' := build_root_shape B T T HT HS' HV fuel root HB).
      exists (map hleaf L), (map hleaf Y). split; [|split; [|split; [|split; [|split]]]].
      - rewrite hleaves_eq by (intros u Hu E; exact SyNe). rewrite HL. reflexivity.
      - constructor.
        + intros h Hh. apply in_map_iff in Hh. destruct Hh as (x & <- & Hx). destruct (HLx x Hx) as (A1 & A2 & A3 & A4 & A5).
          apply hleaf_wf; [exact A1|apply (NT _ A2)|apply (NT _ A3)|exact A5].
        + intros h Hh. apply in_map_iff in Hh. destruct Hh as (x & <- & Hx). destruct (HLx x Hx) as (A1 & A2 & A3 & A4 & A5).
          rewrite Rt, Rs. cbn [hleaf h_t h_s]. split; [exact A4|]. pose proof (node_in_parts T _ HT (b_s x) A3). apply contains_iff. lia.
        + intros h Hh. apply in_map_iff in Hh. destruct Hh as (x & <- & Hx). destruct (HYx x Hx) as (A0 & B1). destruct (HLx x A0) as (A1 & A2 & A3 & A4 & A5).
          rewrite Rt, Rs. cbn [hleaf h_t h_s]. split; [apply in_map, A0|]. split; [exact B1|]. pose proof (node_in_parts T _ HT (b_t x) A2). apply contains_iff. lia.
        + intros HY. split; [|exact SyNe].
          assert (E : Y <> []) by (intros ->; apply HY; reflexivity). specialize (Hk E). destruct root as [i cs]. cbn [rt_children] in Hk. cbn [hfill rt_val h_lsym].
          destruct cs; [discriminate|]. rewrite Hk. reflexivity.
        + intros i j Hi Hj. rewrite Rt in Hi. rewrite Rs in Hj. rewrite !count_hleaf. exact (Hc i j Hi Hj).
      - exact Rt.
      - exact Rs.
      - intros h Hh. apply in_map_iff in Hh. destruct Hh as (x & <- & Hx). exists x. split; [reflexivity|]. split; [apply (Permutation_in _ P1 Hx)|].
        destruct (HLx x Hx) as (A1 & A2 & A3 & A4 & A5). auto.
      - destruct (final_root_task B T T HT HS' root HR' HV) as [Q|Q]; destruct root as [i cs]; cbn [hfill rt_children rt_val h_data] in *.
        + left. rewrite Q. reflexivity.
        + right. unfold block_data. rewrite Q. reflexivity.
    Qed.

    (** *** Entries of the leaves that the builder fills *)
    Section Entries.
      (** Any relation preserved by the symmetry: equality, or an error bound on entries. *)
      Variable P : C -> C -> Prop.
      Hypothesis Prefl : forall x, P x x.
      (** The low-rank generator returns the block, entrywise up to [P]. *)
      Definition compress_within : Prop := forall t s i j, mr (lU (compress t s)) = c_size t -> mc (lV (compress t s)) = c_size s ->
        i < c_size t -> j < c_size s -> P (lr_entry (compress t s) i j) (gen (c_off t + i) (c_off s + j)).

      Lemma hleaf_entry : forall x, compress_within -> (b_sym x = true -> forall i j, gen j i = flip sy (gen i j)) ->
        b_task x <> None -> (b_sym x = true -> c_off (b_t x) = c_off (b_s x) /\ c_size (b_t x) = c_size (b_s x)) ->
        forall i j, i < c_size (b_t x) -> j < c_size (b_s x) -> P (leaf_entry (hleaf x) i j) (gen (c_off (b_t x) + i) (c_off (b_s x) + j)).
      Proof.
        intros x Hex Hsy Htk Hsq i j Hi Hj. unfold leaf_entry, hleaf. cbn [h_data h_sym h_uplo]. unfold block_data.
        assert (D : match (if b_sym x then sy else SyN) with
                    | SyS => from_triangle K (if b_sym x then bb_uplo B else UpN) (fun x => x) (dense_data K gen (b_t x) (b_s x)) i j
                    | SyH => from_triangle K (if b_sym x then bb_uplo B else UpN) (cconj K) (dense_data K gen (b_t x) (b_s x)) i j
                    | _ => me (dense_data K gen (b_t x) (b_s x)) i j
                    end = gen (c_off (b_t x) + i) (c_off (b_s x) + j)).
        { assert (D0 : me (dense_data K gen (b_t x) (b_s x)) i j = gen (c_off (b_t x) + i) (c_off (b_s x) + j)) by (unfold dense_data; rewrite of_fun_me by lia; reflexivity).
          destruct (b_sym x); [|exact D0]. specialize (Hsy eq_refl). destruct (Hsq eq_refl) as [Q1 Q2].
          assert (D1 : me (dense_data K gen (b_t x) (b_s x)) j i = gen (c_off (b_t x) + j) (c_off (b_s x) + i)) by (unfold dense_data; rewrite of_fun_me by lia; reflexivity).
          destruct sy; try exact D0; unfold from_triangle; destruct (in_triangle _ i j); try exact D0; rewrite D1, Q1; symmetry; apply Hsy. }
        destruct (b_task x) as [[|]|]; [|rewrite D; apply Prefl|congruence].
        destruct (_ && _) eqn:E; [|rewrite D; apply Prefl]. apply andb_true_iff in E. destruct E as [E1 E2]. apply Nat.eqb_eq in E1, E2. apply Hex; assumption.
      Qed.

      (** The represented matrix, entry by entry. *)
      Lemma value_within : forall r L Y, compress_within -> (forall x y, P x y -> P (flip sy x) (flip sy y)) ->
        (sy = SyN \/ forall i j, gen j i = flip sy (gen i j)) -> well_formed r L Y sy ->
        (forall h, In h L -> exists x, h = hleaf x /\ b_task x <> None /\ b_sym x = has_sym B (b_t x) (b_s x) /\ (b_sym x = true -> sy <> SyN)) ->
        forall i j, in_iv i (interval (h_t r)) = true -> in_iv j (interval (h_s r)) = true -> P (value L Y sy i j) (gen i j).
      Proof.
        intros r L Y Hex Hfl Hsy W HL i j Hi Hj.
        assert (HE : forall h, In h L -> forall a b, a < c_size (h_t h) -> b < c_size (h_s h) -> P (leaf_entry h a b) (gen (c_off (h_t h) + a) (c_off (h_s h) + b))).
        { intros h Hh a b Ha Hb. destruct (HL h Hh) as (x & -> & Q1 & Q2 & Q3). apply hleaf_entry; try assumption.
          - intros E. destruct Hsy as [->|Hsy]; [destruct (Q3 E eq_refl)|exact Hsy].
          - intros E. rewrite Q2 in E. unfold has_sym in E. destruct (bb_uplo B); [discriminate| |];
              apply andb_true_iff in E; destruct E as [E1 E2]; apply Nat.eqb_eq in E1, E2; auto. }
        pose proof (wf_once _ _ _ _ _ W i j Hi Hj) as O. unfold value.
        destruct (find (hcovers i j) L) as [h|] eqn:E.
        - apply find_some in E. destruct E as [Hh Hc]. unfold hcovers in Hc. apply andb_true_iff in Hc. destruct Hc as [H1 H2]. apply in_ivb in H1, H2.
          replace (gen i j) with (gen (c_off (h_t h) + (i - c_off (h_t h))) (c_off (h_s h) + (j - c_off (h_s h)))) by (f_equal; lia).
          apply HE; [exact Hh|lia|lia].
        - destruct (find (hcovers j i) Y) as [h|] eqn:E2.
          + apply find_some in E2. destruct E2 as [Hh Hc]. unfold hcovers in Hc. apply andb_true_iff in Hc. destruct Hc as [H1 H2].
            apply in_ivb in H1, H2. destruct (wf_sub _ _ _ _ _ W h Hh) as (HL' & _).
            assert (NE : Y <> []) by (intros ->; contradiction). destruct (wf_lsym _ _ _ _ _ W NE) as [_ Q].
            destruct Hsy as [Hsy|Hsy]; [congruence|]. rewrite (Hsy j i).
            replace (gen j i) with (gen (c_off (h_t h) + (j - c_off (h_t h))) (c_off (h_s h) + (i - c_off (h_s h)))) by (f_equal; lia).
            apply Hfl, HE; [exact HL'|lia|lia].
          + exfalso. unfold count in O.
            assert (forall A (f : A -> bool) l, find f l = None -> length (filter f l) = 0) as Z.
            { intros A f l Hn. induction l as [|a l IH]; [reflexivity|]. cbn in *. destruct (f a); [discriminate|]. apply IH, Hn. }
            rewrite (Z _ _ _ E), (Z _ _ _ E2) in O. lia.
      Qed.
    End Entries.
  End Build.
End V.
