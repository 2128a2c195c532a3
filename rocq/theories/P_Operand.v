(** * C79: the matrices the builder makes are operands of the products and of the factorisations.

    Vocabulary: OperandSpec.v ([whole_build], [one_level], [positive_ranks], [exact_compression]); ArithSpec.v ([hrep parts M A]: the hierarchical
    matrix A represents M; [cluster_tree parts T]); HFactSpec.v ([hsym parts u M A]: the triangle u of M is stored in A; [two_way], [factorable]);
    HMatModel.v ([hbuild]: the tree builder). *)

From Coq Require Import List Arith ZArith Bool Permutation Lia Reals.
From Verif Require Import ClusterModel ClusterSpec ClusterProofs ClusterPartition ClusterFinal ClusterDepth IOModel IOSpec BlockModel BlockSpec BlockProofs BlockFinal BlockSym BlockLink
  Algebra Field RealNum BlasModel HMatModel HMatSpec HMatBuild ArithModel ArithSpec ArithTree ArithDest P_Arith DenseSpec HFactModel HFactSpec HFactChol OperandSpec OperandProofs OperandFact
  P_HLU P_HChol P_Cluster P_Block P_HMat P_HTri P_Dense CompReal DenseChol.
From Coq Require Import Lra QArith.Qcanon.
Local Open Scope nat_scope.
Import ListNotations.
Local Open Scope nat_scope.

(** ** The cluster trees *)
Lemma level_1_children : forall t, ci_depth (ct_info t) = 0 -> (forall u, In u (ct_nodes t) -> depth_ok u) -> level 1 t = ct_children t.
Proof.
  intros [c ts] H0 HD. cbn [ct_info] in H0. rewrite level_above by lia. cbn [ct_children].
  assert (Hk : forall t, In t ts -> level 1 t = [t]).
  { intros t Ht. apply level_self; [intros u Hu; apply HD; eapply In_nodes_child; eauto|]. pose proof (HD _ (In_nodes_root _) t Ht) as Q. cbn [ct_info] in Q. lia. }
  rewrite (map_ext_in _ (fun t => [t]) ts Hk). clear. induction ts as [|x l IH]; [reflexivity|]. cbn. f_equal. exact IH.
Qed.

(** The trees of ClusterTreeBuilder: a given partition, or fewer parts than the square of the number of children ([part_depth] is 1): the hypotheses of
    [whole_build] hold for the pair (root, root) ... *)
Theorem C79_cluster_trees : forall sorter strat P fuel s t loc,
  sorter_ok sorter -> 1 <= bp_nc P -> 1 <= bp_sp P ->
  (bp_given P = None -> bp_nc P <= bp_sp P -> 1 <= bp_logdepth P /\ bp_nc P ^ bp_logdepth P <= bp_sp P) ->
  (forall part, bp_given P = Some part -> part <> [] /\ tiles 0 (bp_n P) part /\ forall os, In os part -> 0 < snd os) ->
  ClusterModel.cluster_tree sorter strat P fuel = Some (s, t, loc) -> st_errors s = 0 -> part_depth P = 1 ->
  st_pv s = map (fun u => Some (ct_info u)) (ct_children t) /\
  forall parts, parts t = ct_children t ->
    ArithSpec.cluster_tree parts t /\
    forall B, bb_tpart B = None -> bb_cons B = true -> bb_tparts B = ct_children t -> bb_sparts B = ct_children t -> whole_build parts B t t.
Proof.
  intros sorter strat P fuel s t loc H1 H2 H3 H4 H5 H6 H7 H8.
  destruct (built_partitioned sorter strat P fuel s t loc H1 H2 H3 H4 H5 H6 H7) as (A & C & D & E).
  destruct (final_depth_ok _ _ _ _ _ _ _ H6) as [HR HD].
  assert (L1 : level (part_depth P) t = ct_children t) by (rewrite H8; apply level_1_children; [rewrite HR; reflexivity|exact HD]).
  rewrite L1 in A, E. split; [exact E|]. intros parts Hp.
  assert (O : one_level parts t (ct_children t)) by (intros _; auto). split.
  - exact (tree_operand parts t _ A C HD O).
  - intros B B1 B2 B3 B4. constructor; rewrite ?B3, ?B4; auto.
Qed.
Print Assumptions C79_cluster_trees.

(** ... and the clusters have at most two children when two children are asked for and there are at most two parts. *)
Theorem C79_two_way : forall sorter strat P fuel s t loc,
  sorter_ok sorter -> bp_given P = None -> bp_nc P = 2 -> 1 <= bp_sp P <= 2 -> (bp_sp P = 2 -> bp_logdepth P = 1) ->
  ClusterModel.cluster_tree sorter strat P fuel = Some (s, t, loc) -> two_way t.
Proof.
  intros sorter strat P fuel s t loc HS Hg Hn Hp Hl H.
  assert (N : forall u, In u (ct_nodes t) -> length (ct_children u) <= 2).
  { intros u Hu. destruct (final_nb_children sorter strat P fuel s t loc u H) as [E|E]; [unfold processed; rewrite Hg; exact Hu|rewrite E; cbn; lia|].
    rewrite E. unfold current_nc, on_level, level_children, additional. rewrite Hg, Hn. destruct (Nat.leb_spec 2 (bp_sp P)) as [Q|Q].
    - assert (bp_sp P = 2) by lia. rewrite Hl by assumption. rewrite H0. cbn [Nat.pow Nat.mul Nat.add Nat.sub]. repeat match goal with |- context [if ?b then _ else _] => destruct b end; lia.
    - repeat match goal with |- context [if ?b then _ else _] => destruct b end; lia. }
  clear H. induction t as [c ts IH] using ctree_ind'. constructor; [exact (N _ (In_nodes_root _))|]. intros k Hk. apply (IH k Hk). intros u Hu. apply N. eapply In_nodes_child; eauto.
Qed.
Print Assumptions C79_two_way.

(** ** The built matrices *)
Section Built.
  Variable K : Coef.
  Variable parts : ctree -> list ctree.
  Notation C := (car K).

  Lemma whole_root : forall B fuel t s, bb_tpart B = None -> build_root B fuel t s = build_block_tree B fuel t s.
  Proof.
    intros B fuel t s H. unfold build_root. destruct (build_block_tree B fuel t s) as [[b cs]|] eqn:E; [|reflexivity].
    unfold reset_root. rewrite (all_in_part B H). destruct (block_clusters B _ _ _ _ E) as (E1 & E2 & E3). cbn [rt_val] in *. destruct b as [t' s' k y]. cbn in *. subst. reflexivity.
  Qed.

  Lemma trees_ok : forall B T S, whole_build parts B T S -> ArithSpec.cluster_tree parts T /\ ArithSpec.cluster_tree parts S.
  Proof.
    intros B T S W. split; [apply (tree_operand parts T (bb_tparts B))|apply (tree_operand parts S (bb_sparts B))]; apply W.
  Qed.

  Lemma leaf_listed : forall sy B gen compress root L Y, (forall u, In u (preorder root) -> b_sym (rt_val u) = true -> sy <> SyN) ->
    hleaves K (hfill K sy B gen compress root) = Some (L, Y) -> forall x, In x (rleaves root) -> In (hleaf K sy B gen compress x) L.
  Proof.
    intros sy B gen compress root L Y Hs HL x Hx. rewrite (hleaves_eq K sy B gen compress root Hs) in HL.
    destruct (get_leaves_from (length (preorder root)) root) as [[L0 Y0]|] eqn:E; [|discriminate]. cbn in HL. injection HL as <- <-. apply in_map.
    unfold get_leaves_from in E. apply leaves_run_ok in E. cbn [map concat fst snd app] in E. rewrite !app_nil_r in E. apply (Permutation_in _ (Permutation_sym (proj1 E))). exact Hx.
  Qed.

  Lemma plain_nosym : forall B t s, bb_uplo B = UpN -> plain B t s.
  Proof. intros B t s H t' s' _ _. split; [apply removed_N, H|unfold has_sym; rewrite H; reflexivity]. Qed.

  Lemma built_value : forall B gen compress T S fuel A,
    whole_build parts B T S -> bb_uplo B = UpN -> compress_ok K compress -> positive_ranks compress ->
    hbuild K SyN B gen compress fuel T S = Some A ->
    block_of A = (T, S) /\
    exists L, hleaves K A = Some (L, []) /\ hrep parts (value L [] SyN) A /\
      forall P : C -> C -> Prop, (forall c, P c c) -> compress_within K gen compress P ->
        forall i j, in_iv i (interval T) = true -> in_iv j (interval S) = true -> P (value L [] SyN i j) (gen i j).
  Proof.
    intros B gen compress T S fuel A W HN Hco Hpos HB. destruct (trees_ok B T S W) as [CT CS]. unfold hbuild in HB.
    destruct (build_root B fuel T S) as [root|] eqn:E; [|discriminate]. injection HB as <-.
    assert (HV : part_valid B T) by (unfold part_valid; rewrite (wb_whole _ _ _ _ W); exact I).
    destruct (nosym_built K SyN B gen compress Hco (fun q => ltac:(discriminate)) T S fuel root eq_refl HN (wb_t _ _ _ _ W) (wb_s _ _ _ _ W) (wb_tsize _ _ _ _ W) (wb_ssize _ _ _ _ W) HV E)
      as (L & H1 & H2 & H3 & H4 & H5 & H6).
    pose proof E as E'. rewrite (whole_root B fuel T S (wb_whole _ _ _ _ W)) in E'. destruct (block_clusters B _ _ _ _ E') as (B1 & B2 & _).
    assert (BO : block_of (hfill K SyN B gen compress root) = (T, S)) by (rewrite hf_block, B1, B2; reflexivity).
    split; [exact BO|]. exists L. split; [exact H1|]. split.
    - apply (build_hrep K SyN B gen compress parts (wb_whole _ _ _ _ W) (wb_consistent _ _ _ _ W) Hco Hpos _ fuel T S root CT CS (plain_nosym B T S HN) (wb_level _ _ _ _ W) E').
      assert (SY : forall u, In u (preorder root) -> b_sym (rt_val u) = true -> SyN <> SyN).
      { intros u Hu Q. exfalso. rewrite (final_sym B T S (wb_t _ _ _ _ W) (wb_s _ _ _ _ W) root (build_root_shape B T S (wb_t _ _ _ _ W) (wb_s _ _ _ _ W) HV fuel root E) HV (removed_N B HN T S) u Hu) in Q.
        unfold has_sym in Q. rewrite HN in Q. discriminate. }
      intros x Hx i j Hi Hj. pose proof (leaf_listed SyN B gen compress root L [] SY H1 x Hx) as HL.
      pose proof (hm_entries _ _ _ _ _ _ (value_holds K _ _ _ _ H2) _ HL i j Hi Hj) as V. cbn [hleaf h_t h_s] in V. rewrite <- V.
      unfold stored, leaf_entry, hleaf. cbn [h_data h_sym]. destruct (b_sym x); reflexivity.
    - intros P Pr Hw i j Hi Hj.
      apply (value_within K SyN B gen compress P Pr (rt_val (hfill K SyN B gen compress root)) L [] Hw (fun x y q => q) (or_introl eq_refl) H2).
      + intros h Hh. destruct (H5 h Hh) as (x & F1 & _ & F2 & F3 & F4). exists x. auto.
      + rewrite H3. unfold row_in. rewrite (wb_whole _ _ _ _ W), Hi. reflexivity.
      + rewrite H4. exact Hj.
  Qed.

  (** A matrix built without symmetry represents a matrix M, the entries of which are as close to those of the generator as those of the
      compressed blocks are. *)
  Theorem C79_built_operand : forall B gen compress T S fuel A,
    whole_build parts B T S -> bb_uplo B = UpN -> compress_ok K compress -> positive_ranks compress ->
    hbuild K SyN B gen compress fuel T S = Some A ->
    block_of A = (T, S) /\
    exists M, hrep parts M A /\
      forall P : C -> C -> Prop, (forall c, P c c) -> compress_within K gen compress P ->
        forall i j, in_iv i (interval T) = true -> in_iv j (interval S) = true -> P (M i j) (gen i j).
  Proof.
    intros B gen compress T S fuel A W HN Hco Hpos HB. destruct (built_value B gen compress T S fuel A W HN Hco Hpos HB) as (H1 & L & _ & H2 & H3).
    split; [exact H1|]. exists (value L [] SyN). split; [exact H2|exact H3].
  Qed.

  (** Without loss in the compression: the matrix of the generator. *)
  Lemma exact_leaf : forall sy B gen compress x, exact_compression gen compress -> b_task x <> None ->
    forall i j, i < c_size (b_t x) -> j < c_size (b_s x) -> stored (hleaf K sy B gen compress x) i j = gen (c_off (b_t x) + i) (c_off (b_s x) + j).
  Proof.
    intros sy B gen compress x He Hx i j Hi Hj. unfold stored, hleaf. cbn [h_data]. unfold block_data. destruct (b_task x) as [[|]|]; [| |congruence].
    - destruct (mr (lU (compress (b_t x) (b_s x))) =? c_size (b_t x)) eqn:E1; [destruct (mc (lV (compress (b_t x) (b_s x))) =? c_size (b_s x)) eqn:E2|]; cbn [andb];
        [apply He; try (apply Nat.eqb_eq); assumption| |]; (unfold dense_data; rewrite of_fun_me by assumption; reflexivity).
    - unfold dense_data. rewrite of_fun_me by assumption. reflexivity.
  Qed.

  Theorem C79_exact_operand : forall B gen compress T S fuel A,
    whole_build parts B T S -> bb_uplo B = UpN -> compress_ok K compress -> positive_ranks compress -> exact_compression gen compress ->
    hbuild K SyN B gen compress fuel T S = Some A -> block_of A = (T, S) /\ hrep parts gen A.
  Proof.
    intros B gen compress T S fuel A W HN Hco Hpos He HB. destruct (trees_ok B T S W) as [CT CS]. unfold hbuild in HB.
    destruct (build_root B fuel T S) as [root|] eqn:E; [|discriminate]. injection HB as <-.
    assert (HV : part_valid B T) by (unfold part_valid; rewrite (wb_whole _ _ _ _ W); exact I).
    pose proof (build_root_shape B T S (wb_t _ _ _ _ W) (wb_s _ _ _ _ W) HV fuel root E) as HR.
    destruct (final_leaves B T S (wb_t _ _ _ _ W) (wb_s _ _ _ _ W) HV (removed_N B HN T S) (fun _ _ _ _ => removed_N B HN _ _) (witnessed_N B T S (wb_tsize _ _ _ _ W) (wb_ssize _ _ _ _ W) HN) root HR) as [_ H2].
    pose proof E as E'. rewrite (whole_root B fuel T S (wb_whole _ _ _ _ W)) in E'. destruct (block_clusters B _ _ _ _ E') as (B1 & B2 & _).
    split; [rewrite hf_block, B1, B2; reflexivity|].
    apply (build_hrep K SyN B gen compress parts (wb_whole _ _ _ _ W) (wb_consistent _ _ _ _ W) Hco Hpos _ fuel T S root CT CS (plain_nosym B T S HN) (wb_level _ _ _ _ W) E').
    intros x Hx i j Hi Hj. destruct (H2 x Hx) as (k & Ek & _). apply exact_leaf; [exact He|congruence|exact Hi|exact Hj].
  Qed.

  (** ** The product of built matrices is the product of the generators *)
  Theorem C79_product : forall (recompress : lrm K -> lrm K) (svd_factors : mat K -> lrm K), exact_recompression recompress -> exact_svd svd_factors ->
    forall BA BB BC gA gB gC cA cB cC TA SA TB SB TC SC fA fB fC A B Cm,
    whole_build parts BA TA SA -> bb_uplo BA = UpN -> compress_ok K cA -> positive_ranks cA -> exact_compression gA cA -> hbuild K SyN BA gA cA fA TA SA = Some A ->
    whole_build parts BB TB SB -> bb_uplo BB = UpN -> compress_ok K cB -> positive_ranks cB -> exact_compression gB cB -> hbuild K SyN BB gB cB fB TB SB = Some B ->
    whole_build parts BC TC SC -> bb_uplo BC = UpN -> compress_ok K cC -> positive_ranks cC -> exact_compression gC cC -> hbuild K SyN BC gC cC fC TC SC = Some Cm ->
    forall ta tb alpha fuel, height K A < fuel ->
    (if is_N ta then SA else TA) = (if is_N tb then TB else SB) -> TC = (if is_N ta then TA else SA) -> SC = (if is_N tb then SB else TB) ->
    exists C', hh_h K recompress svd_factors parts fuel ta tb alpha A B (c1 K) Cm = Some C' /\ block_of C' = (TC, SC) /\
      hrep parts (fun i j => cadd K (gC i j) (cmul K alpha (csum (if is_N ta then SA else TA) (fun x => cmul K (op_fun ta gA i x) (op_fun tb gB x j))))) C'.
  Proof.
    intros rc sv HR HS BA BB BC gA gB gC cA cB cC TA SA TB SB TC SC fA fB fC A B Cm WA NA OA PA EA HA WB NB OB PB EB HB WC NC OC PC EC HC ta tb alpha fuel Hf HM Ho Hi.
    destruct (C79_exact_operand BA gA cA TA SA fA A WA NA OA PA EA HA) as [KA RA].
    destruct (C79_exact_operand BB gB cB TB SB fB B WB NB OB PB EB HB) as [KB RB].
    destruct (C79_exact_operand BC gC cC TC SC fC Cm WC NC OC PC EC HC) as [KC RC].
    unfold block_of in KA, KB. injection KA as KA1 KA2. injection KB as KB1 KB2.
    assert (MA : mid_of K ta A = if is_N ta then SA else TA) by (unfold mid_of; destruct (is_N ta); assumption).
    assert (OO : out_of K ta A = if is_N ta then TA else SA) by (unfold out_of; destruct (is_N ta); assumption).
    assert (MB : mid_of K tb B = if is_N tb then SB else TB) by (unfold mid_of; destruct (is_N tb); assumption).
    assert (OB' : out_of K tb B = if is_N tb then TB else SB) by (unfold out_of; destruct (is_N tb); assumption).
    pose proof (wb_level _ _ _ _ WA) as LA. pose proof (wb_level _ _ _ _ WB) as LB.
    destruct (C25_product K parts rc sv HR HS fuel ta tb alpha gA gB gC A B Cm Hf RA RB RC) as (C' & E1 & E2).
    - rewrite MA, OB'. exact HM.
    - rewrite KC, OO, MB, Ho, Hi. reflexivity.
    - rewrite OO, MA. destruct (is_N ta); congruence.
    - rewrite MB, MA, HM. destruct (is_N tb); congruence.
    - exists C'. rewrite MA in E2. split; [exact E1|]. split; [|exact E2].
      destruct (C25_product_scaled K parts rc sv HR HS fuel ta tb alpha (c1 K) gA gB A B Cm Hf RA RB (hrep_hdest K parts gC Cm RC)) as (H' & F1 & F2).
      + rewrite MA, OB'. exact HM.
      + rewrite KC, OO, MB, Ho, Hi. reflexivity.
      + rewrite OO, MA. destruct (is_N ta); congruence.
      + rewrite MB, MA, HM. destruct (is_N tb); congruence.
      + left. reflexivity.
      + rewrite E1 in F1. injection F1 as <-. rewrite <- KC. apply (hupd_block K _ _ _ F2).
  Qed.
End Built.
Print Assumptions C79_built_operand.
Print Assumptions C79_exact_operand.
Print Assumptions C79_product.

(** ** LU: a built matrix is factored and the system solved, in user numbering *)
Theorem C79_lu_solve : forall (F : Fld) parts recompress svd_factors piv, exact_recompression recompress -> exact_svd svd_factors -> pivot_rule piv ->
  forall N perm Au B compress T fuelb (A : rtree (hinfo (fk F))) fuel,
  let n := c_size T in let gen := fun i j => Au (nth i perm 0) (nth j perm 0) in
  Permutation perm (seq 0 N) -> c_off T + n <= N -> Permutation (slice (c_off T) n perm) (seq (c_off T) n) ->
  whole_build parts B T T -> bb_uplo B = UpN -> compress_ok (fk F) compress -> positive_ranks compress -> exact_compression gen compress ->
  (forall u, In u (ct_nodes T) -> bb_adm B u u = false) ->
  (forall u, In u (ct_leaves T) -> injective (F := F) (c_off u + c_size u - c_off T) (fun x y => gen (c_off T + x) (c_off T + y))) ->
  hbuild (fk F) SyN B gen compress fuelb T T = Some A -> 3 * cheight T <= fuel ->
  exists A', lu F recompress svd_factors parts piv fuel A = Some A' /\
    forall t (Bm : mat (fk F)) q, 1 <= q -> wf_mat Bm n q ->
    exists X, lu_solve F parts perm fuel t A' Bm = Some X /\ wf_mat X n q /\
      is_solution SdL t (fun i j => Au (c_off T + i) (c_off T + j)) (c1 (fk F)) n q (me Bm) (me X).
Proof.
  intros F parts rc sv piv HR HSv HP N perm Au B compress T fuelb A fuel n gen Hp Hb Hl W HN Hco Hpos He Had Hin HB Hf.
  destruct (C79_exact_operand (fk F) parts B gen compress T T fuelb A W HN Hco Hpos He HB) as [BO HM]. unfold block_of in BO. injection BO as Bt Bs.
  unfold hbuild in HB. destruct (build_root B fuelb T T) as [root|] eqn:E; [|discriminate]. injection HB as <-. rewrite (whole_root B fuelb T T (wb_whole _ _ _ _ W)) in E.
  destruct (trees_ok parts B T T W) as [CT _].
  pose proof (build_factorable F SyN B gen compress parts (wb_whole _ _ _ _ W) (wb_consistent _ _ _ _ W) gen (c_off T) fuelb T root CT (plain_nosym B T T HN) Had Hin E) as HF.
  pose proof (C27_solve F parts rc sv piv HR HSv HP N perm Au (hfill (fk F) SyN B gen compress root) fuel) as Q. cbv zeta in Q. rewrite Bt in Q.
  apply Q; try assumption.
Qed.
Print Assumptions C79_lu_solve.

(** ** Cholesky: a matrix built with one of its halves *)
Lemma built_hsym : forall (F : Fld) parts sy B gen compress T fuelb A,
  (sy = SyS \/ sy = SyH) -> whole_build parts B T T -> bb_sparts B = bb_tparts B -> bb_qpart B = None -> bb_uplo B <> UpN ->
  compress_ok (fk F) compress -> positive_ranks compress -> exact_compression gen compress -> (forall u, In u (ct_nodes T) -> bb_adm B u u = false) ->
  hbuild (fk F) sy B gen compress fuelb T T = Some A ->
  h_t (rt_val A) = T /\ h_s (rt_val A) = T /\ hsym parts (bb_uplo B) gen A.
Proof.
  intros F parts sy B gen compress T fuelb A Hsy W HSp Hq Hu Hco Hpos He Had HB.
  unfold hbuild in HB. destruct (build_root B fuelb T T) as [root|] eqn:E; [|discriminate]. injection HB as <-.
  pose proof E as E'. rewrite (whole_root B fuelb T T (wb_whole _ _ _ _ W)) in E'. destruct (trees_ok parts B T T W) as [CT _].
  destruct (block_clusters B _ _ _ _ E') as (B1 & B2 & _). pose proof (hf_block (fk F) sy B gen compress root) as BO. unfold block_of in BO. rewrite B1, B2 in BO. injection BO as Bt Bs.
  split; [exact Bt|]. split; [exact Bs|].
  apply (build_hsym F sy B gen compress parts (wb_whole _ _ _ _ W) (wb_consistent _ _ _ _ W) Hco Hpos gen fuelb T root Hq Hu CT Had E').
  destruct (leaves_total (length (preorder root)) root (le_n _)) as [[L Y] HL].
  destruct (sym_extra B T (wb_t _ _ _ _ W) HSp (wb_tsize _ _ _ _ W) (wb_consistent _ _ _ _ W) T (or_introl (conj (wb_whole _ _ _ _ W) (conj Hq eq_refl))) Hu fuelb root _ L Y E HL) as (_ & _ & HLx & _).
  intros x Hx i j Hi Hj. apply leaves_run_ok in HL. cbn [map concat fst snd app] in HL. rewrite !app_nil_r in HL.
  destruct (HLx x (Permutation_in _ (Permutation_sym (proj1 HL)) Hx)) as (Tk & _). apply exact_leaf; assumption.
Qed.

Theorem C79_cholesky_solve_real : forall parts recompress svd_factors, exact_recompression (K := Rc) recompress -> exact_svd (K := Rc) svd_factors ->
  forall N perm (Au : nat -> nat -> R) B compress T fuelb (A : rtree (hinfo Rc)) fuel,
  let n := c_size T in let gen := fun i j => Au (nth i perm 0) (nth j perm 0) in
  Permutation perm (seq 0 N) -> c_off T + n <= N -> Permutation (slice (c_off T) n perm) (seq (c_off T) n) ->
  whole_build parts B T T -> bb_sparts B = bb_tparts B -> bb_qpart B = None -> bb_uplo B <> UpN -> two_way T ->
  compress_ok Rc compress -> positive_ranks compress -> exact_compression (K := Rc) gen compress ->
  (forall u, In u (ct_nodes T) -> bb_adm B u u = false) ->
  (forall i j, i < n -> j < n -> gen (c_off T + i) (c_off T + j) = gen (c_off T + j) (c_off T + i)) ->
  (forall x : nat -> R, (exists i, i < n /\ x i <> 0%R) ->
     (0 < sum (K := Rc) n (fun i => x i * sum (K := Rc) n (fun j => gen (c_off T + i)%nat (c_off T + j)%nat * x j)))%R) ->
  hbuild Rc SyS B gen compress fuelb T T = Some A -> 3 * cheight T <= fuel ->
  exists A', cholesky Rf recompress svd_factors parts (fun d => Rltb 0 d) sqrt TrT fuel (bb_uplo B) A = Some (A', true) /\
    forall (Bm : mat Rc) q, 1 <= q -> wf_mat Bm n q ->
    exists X, cholesky_solve Rf parts TrT perm fuel (bb_uplo B) A' Bm = Some X /\ wf_mat X n q /\
      is_solution (F := Rf) SdL TrN (fun i j => Au (c_off T + i) (c_off T + j)) 1%R n q (me Bm) (me X).
Proof.
  intros parts rc sv HR HSv N perm Au B compress T fuelb A fuel n gen Hp Hb Hl W HSp Hq Hu Hw Hco Hpos He Had Hsy Hpd HB Hf.
  destruct (built_hsym Rf parts SyS B gen compress T fuelb A (or_introl eq_refl) W HSp Hq Hu Hco Hpos He Had HB) as (Bt & _ & HM). change (fk Rf) with Rc in Bt.
  pose proof (C28_solve_real parts rc sv HR HSv N perm Au (bb_uplo B) A fuel) as Q. cbv zeta in Q. rewrite Bt in Q. apply Q; assumption.
Qed.
Print Assumptions C79_cholesky_solve_real.

Theorem C79_cholesky_solve_complex : forall parts recompress svd_factors, exact_recompression (K := Cc) recompress -> exact_svd (K := Cc) svd_factors ->
  forall N perm (Au : nat -> nat -> R * R) B compress T fuelb (A : rtree (hinfo Cc)) fuel,
  let n := c_size T in let gen := fun i j => Au (nth i perm 0) (nth j perm 0) in
  Permutation perm (seq 0 N) -> c_off T + n <= N -> Permutation (slice (c_off T) n perm) (seq (c_off T) n) ->
  whole_build parts B T T -> bb_sparts B = bb_tparts B -> bb_qpart B = None -> bb_uplo B <> UpN -> two_way T ->
  compress_ok Cc compress -> positive_ranks compress -> exact_compression (K := Cc) gen compress ->
  (forall u, In u (ct_nodes T) -> bb_adm B u u = false) ->
  (forall i j, i < n -> j < n -> gen (c_off T + i) (c_off T + j) = Cconj (gen (c_off T + j) (c_off T + i))) ->
  (forall x : nat -> R * R, (exists i, i < n /\ x i <> (0%R, 0%R)) ->
     (0 < fst (sum (K := Cc) n (fun i => Cmul (Cconj (x i)) (sum (K := Cc) n (fun j => Cmul (gen (c_off T + i)%nat (c_off T + j)%nat) (x j))))))%R) ->
  hbuild Cc SyH B gen compress fuelb T T = Some A -> 3 * cheight T <= fuel ->
  exists A', cholesky Cf recompress svd_factors parts Cpos Csqrt TrC fuel (bb_uplo B) A = Some (A', true) /\
    forall (Bm : mat Cc) q, 1 <= q -> wf_mat Bm n q ->
    exists X, cholesky_solve Cf parts TrC perm fuel (bb_uplo B) A' Bm = Some X /\ wf_mat X n q /\
      is_solution (F := Cf) SdL TrN (fun i j => Au (c_off T + i) (c_off T + j)) (1%R, 0%R) n q (me Bm) (me X).
Proof.
  intros parts rc sv HR HSv N perm Au B compress T fuelb A fuel n gen Hp Hb Hl W HSp Hq Hu Hw Hco Hpos He Had Hsy Hpd HB Hf.
  destruct (built_hsym Cf parts SyH B gen compress T fuelb A (or_intror eq_refl) W HSp Hq Hu Hco Hpos He Had HB) as (Bt & _ & HM). change (fk Cf) with Cc in Bt.
  pose proof (C28_solve_complex parts rc sv HR HSv N perm Au (bb_uplo B) A fuel) as Q. cbv zeta in Q. rewrite Bt in Q. apply Q; assumption.
Qed.
Print Assumptions C79_cholesky_solve_complex.

(** ** Concrete cases *)
Section Example.
  (** Twelve points, two children, two parts: a tree of ClusterTreeBuilder. *)
  Definition oP : bparams := mkBparams 12 2 2 1 None 1.
  Definition oT : ctree := exT_of (ClusterModel.cluster_tree (isort ex_key) Regular oP 25).
  Definition oparts (_ : ctree) : list ctree := ct_children oT.
  Definition operm : list nat := ci_pts (ct_info oT).
  Lemma o_tree_ok : match ClusterModel.cluster_tree (isort ex_key) Regular oP 25 with Some (s, t, l) => st_errors s = 0 | None => False end.
  Proof. vm_compute. reflexivity. Qed.
  Lemma o_gen : forall o, o = ClusterModel.cluster_tree (isort ex_key) Regular oP 25 -> match o with Some (s, t, l) => st_errors s = 0 | None => False end ->
    two_way (exT_of o) /\
    forall B, bb_tpart B = None -> bb_cons B = true -> bb_tparts B = ct_children (exT_of o) -> bb_sparts B = ct_children (exT_of o) -> whole_build (fun _ => ct_children (exT_of o)) B (exT_of o) (exT_of o).
  Proof.
    intros [[[s t] l]|] Et E; [|contradiction].
    assert (L0 : bp_given oP = None -> bp_nc oP <= bp_sp oP -> 1 <= bp_logdepth oP /\ bp_nc oP ^ bp_logdepth oP <= bp_sp oP) by (cbn; intros _ _; lia).
    assert (G0 : forall part, bp_given oP = Some part -> part <> [] /\ tiles 0 (bp_n oP) part /\ forall os, In os part -> 0 < snd os) by (intros part Q; discriminate Q).
    destruct (C79_cluster_trees (isort ex_key) Regular oP 25 s t l (isort_ok ex_key) (Nat.lt_0_succ 1) (Nat.lt_0_succ 1) L0 G0 (eq_sym Et) E eq_refl) as (_ & A).
    destruct (A (fun _ => ct_children t) eq_refl) as [_ A2]. cbn [exT_of]. split; [|exact A2].
    exact (C79_two_way (isort ex_key) Regular oP 25 s t l (isort_ok ex_key) eq_refl eq_refl (conj (Nat.lt_0_succ 1) (Nat.le_refl 2)) (fun _ => eq_refl) (eq_sym Et)).
  Qed.
  Lemma o_two_way : two_way oT. Proof. exact (proj1 (o_gen _ eq_refl o_tree_ok)). Qed.
  Definition oB (u : uplo) : bbuild := genB u (ct_children oT).
  Lemma o_whole : forall u, whole_build oparts (oB u) oT oT.
  Proof. intros u. exact (proj2 (o_gen _ eq_refl o_tree_ok) (oB u) eq_refl eq_refl eq_refl eq_refl). Qed.

  (** The product: the hypotheses hold (matrix with low-rank blocks, see [o_low_rank]). *)
  Lemma o_built : match hbuild Zc SyN (oB UpN) ex_gen' ex_compress 200 oT oT with Some _ => true | None => false end = true. Proof. vm_compute. reflexivity. Qed.
  Example o_low_rank : match hbuild Zc SyN (oB UpN) ex_gen' ex_compress 200 oT oT with
    | Some A => length (filter (fun u => match h_data (rt_val u) with DLow _ => true | _ => false end) (preorder A)) | None => 0 end = 6.
  Proof. vm_compute. reflexivity. Qed.
  Lemma o_product : forall parts B T fuel A, whole_build parts B T T -> bb_uplo B = UpN -> hbuild Zc SyN B ex_gen' ex_compress fuel T T = Some A ->
    exists C', hh_h Zc (fun L => L) (svd_id Zc) parts (S (height Zc A)) TrN TrT 2%Z A A 1%Z A = Some C' /\
    hrep (K := Zc) parts (fun i j => (ex_gen' i j + 2 * csum (K := Zc) T (fun x => ex_gen' i x * ex_gen' j x))%Z) C'.
  Proof.
    intros parts B T fuel A W U E.
    assert (HC : exact_compression (K := Zc) ex_gen' ex_compress) by exact ex_compress_exact.
    assert (HP : positive_ranks ex_compress) by (intros t s _ _; unfold ex_compress, lrank; cbn; lia).
    destruct (C79_product Zc parts (fun L => L) (svd_id Zc) (recompress_id Zc) (svd_id_exact Zc) _ _ _ _ _ _ _ _ _ _ _ _ _ _ _ _ _ _ A A A
      W U ex_compress_ok HP HC E W U ex_compress_ok HP HC E W U ex_compress_ok HP HC E TrN TrT 2%Z (S (height Zc A)) (Nat.lt_succ_diag_r _) eq_refl eq_refl eq_refl) as (C' & Q1 & _ & Q2).
    exists C'. split; [exact Q1|exact Q2].
  Qed.
  Example C79_product_hyps : exists A C', hbuild Zc SyN (oB UpN) ex_gen' ex_compress 200 oT oT = Some A /\
    hh_h Zc (fun L => L) (svd_id Zc) oparts (S (height Zc A)) TrN TrT 2%Z A A 1%Z A = Some C' /\
    hrep (K := Zc) oparts (fun i j => (ex_gen' i j + 2 * csum (K := Zc) oT (fun x => ex_gen' i x * ex_gen' j x))%Z) C'.
  Proof.
    pose proof o_built as OB. destruct (hbuild Zc SyN (oB UpN) ex_gen' ex_compress 200 oT oT) as [A|] eqn:E; [|discriminate OB]. clear OB. exists A.
    destruct (o_product oparts (oB UpN) oT 200 A (o_whole UpN) eq_refl E) as (C' & Q1 & Q2). exists C'. split; [reflexivity|]. split; [exact Q1|exact Q2].
  Qed.

  (** Outside the hypotheses: a partition of two levels (23 points, 5 parts, two children).  The matrix is built and multiplied by vectors
      correctly (C18), but the product by itself adds nothing, without an error: the sub-blocks are looked for on the clusters of the partition, which
      are not children of the root. *)
  Definition contents (A : rtree (hinfo Zc)) : list (list Z) :=
    map (fun u => match h_data (rt_val u) with DDense D => HMatModel.md D | DLow L => HMatModel.md (lU L) ++ HMatModel.md (lV L) | DNone => [] end) (preorder A).
  Lemma o_lost : match hbuild Zc SyN (genB UpN ex_parts) ex_gen' ex_compress 200 exT exT with
    | Some A => match hh_h Zc (fun L => L) (svd_id Zc) (fun _ => ex_parts) 100 TrN TrN 1%Z A A 1%Z A with
                | Some C' => forallb (fun p => if list_eq_dec Z.eq_dec (fst p) (snd p) then true else false) (combine (contents A) (contents C')) && (length (contents A) =? length (contents C'))
                | None => false end
    | None => false end = true.
  Proof. vm_compute. reflexivity. Qed.
  Lemma same_contents : forall l l' : list (list Z), forallb (fun p => if list_eq_dec Z.eq_dec (fst p) (snd p) then true else false) (combine l l') && (length l =? length l') = true -> l' = l.
  Proof.
    induction l as [|a l IH]; intros [|b l'] H; try reflexivity; try discriminate H. cbn [combine forallb length fst snd] in H. apply andb_true_iff in H. destruct H as [H1 H2]. apply andb_true_iff in H1. destruct H1 as [H1 H3].
    destruct (list_eq_dec Z.eq_dec a b) as [->|]; [|discriminate]. f_equal. apply IH. apply andb_true_iff. split; [exact H3|exact H2].
  Qed.
  Theorem C79_two_levels_refuted : partitioned exT ex_parts /\ nonempty exT /\ exact_compression (K := Zc) ex_gen' ex_compress /\
    exists A C', hbuild Zc SyN (genB UpN ex_parts) ex_gen' ex_compress 200 exT exT = Some A /\
      hh_h Zc (fun L => L) (svd_id Zc) (fun _ => ex_parts) 100 TrN TrN 1%Z A A 1%Z A = Some C' /\ contents C' = contents A /\
      (0 < csum (K := Zc) exT (fun x => ex_gen' 0 x * ex_gen' x 0))%Z.
  Proof.
    split; [apply P_Block.ex_hyps|]. split; [apply P_Block.ex_hyps|]. split; [exact ex_compress_exact|].
    pose proof o_lost as OL. destruct (hbuild Zc SyN (genB UpN ex_parts) ex_gen' ex_compress 200 exT exT) as [A|] eqn:E; [|discriminate OL]. exists A.
    destruct (hh_h Zc (fun L => L) (svd_id Zc) (fun _ => ex_parts) 100 TrN TrN 1%Z A A 1%Z A) as [C'|] eqn:E2; [|discriminate OL]. exists C'.
    split; [reflexivity|]. split; [reflexivity|]. split; [apply same_contents; exact OL|]. vm_compute. reflexivity.
  Qed.
  Print Assumptions C79_two_levels_refuted.

  (** LU: the entries are 1 and i + 2 on the diagonal, in user numbering; the blocks far from the diagonal have rank 1. *)
  Definition oAu (i j : nat) : Qc := if i =? j then q (Z.of_nat i + 2) else q 1.
  Definition og (i j : nat) : Qc := oAu (nth i operm 0) (nth j operm 0).
  (** The compression succeeds on blocks off the diagonal. *)
  Definition apart (t s : ctree) : bool := ((c_off t + c_size t <=? c_off s) || (c_off s + c_size s <=? c_off t)) && (c_off t + c_size t <=? 12) && (c_off s + c_size s <=? 12).
  Definition ones (K : Coef) (r c : nat) : mat K := of_fun K r c (fun _ _ => c1 K).
  Definition ocomp (K : Coef) (t s : ctree) : lrm K := if apart t s then mkLrm (ones K (c_size t) 1) (ones K 1 (c_size s)) else mkLrm (ones K (S (c_size t)) 1) (ones K 1 (c_size s)).
  Lemma ocomp_ok : forall K, compress_ok K (ocomp K). Proof. intros K t s. unfold ocomp. destruct (apart t s); split; apply of_fun_wf. Qed.
  Lemma ocomp_pos : forall K, positive_ranks (ocomp K). Proof. intros K t s _ _. unfold ocomp. destruct (apart t s); unfold lrank; cbn; lia. Qed.
  Lemma operm_distinct : forallb (fun i => forallb (fun j => Bool.eqb (nth i operm 0 =? nth j operm 0) (i =? j)) (seq 0 12)) (seq 0 12) = true. Proof. vm_compute. reflexivity. Qed.
  Lemma operm_inj : forall i j, i < 12 -> j < 12 -> i <> j -> (nth i operm 0 =? nth j operm 0) = false.
  Proof.
    intros i j Hi Hj Hn. pose proof (proj1 (forallb_forall _ _) (proj1 (forallb_forall _ _) operm_distinct i ltac:(apply in_seq; lia)) j ltac:(apply in_seq; lia)) as H.
    apply Bool.eqb_prop in H. rewrite H. apply Nat.eqb_neq. exact Hn.
  Qed.
  Lemma ocomp_exact : forall K (d : nat -> car K), exact_compression (K := K) (fun i j => if nth i operm 0 =? nth j operm 0 then d (nth i operm 0) else c1 K) (ocomp K).
  Proof.
    intros K d t s i j E1 E2 Hi Hj. unfold ocomp in *. destruct (apart t s) eqn:Ea.
    - unfold apart in Ea. apply andb_true_iff in Ea. destruct Ea as [Ea E3]. apply andb_true_iff in Ea. destruct Ea as [Ea E4]. apply Nat.leb_le in E3, E4. apply orb_true_iff in Ea. rewrite !Nat.leb_le in Ea.
      rewrite operm_inj by lia. unfold lr_entry, lrank. cbn [lU lV]. unfold ones. cbn [of_fun mc mkMat]. cbn [sum]. rewrite !of_fun_me by lia. pose proof (c_ring K) as RT. rewrite (Ring_theory.Rmul_1_l RT). apply (Ring_theory.Radd_0_l RT) || (rewrite (Ring_theory.Radd_comm RT); apply (Ring_theory.Radd_0_l RT)).
    - exfalso. cbn in E1. lia.
  Qed.
  Lemma o_adm : forall u t, bb_adm (oB u) t t = false.
  Proof. intros u t. cbn. unfold ex_adm. apply orb_false_iff. split; apply Nat.leb_gt; lia. Qed.
  (** The inverse of the leading blocks. *)
  Definition od (i : nat) : Qc := q (Z.of_nat (nth i operm 0) + 1).
  Definition oinv (n : nat) : list Qc :=
    let s := fold_right Qcplus (q 1) (map (fun i => Qcinv (od i)) (seq 0 n)) in
    flat_map (fun i => map (fun j => Qcminus (if i =? j then Qcinv (od i) else q 0) (Qcdiv (Qcmult (Qcinv (od i)) (Qcinv (od j))) s)) (seq 0 n)) (seq 0 n).
  Definition oinv_ok (n : nat) : bool := let I := oinv n in
    forallb (fun i => forallb (fun j => Qc_eq_bool (sum (K := Qcc) n (fun k => Qcmult (nth (n * i + k) I (q 0)) (og (0 + k) (0 + j)))) (if i =? j then q 1 else q 0)) (seq 0 n)) (seq 0 n).
  Lemma o_leading : forallb (fun u => (c_off oT =? 0) && oinv_ok (c_off u + c_size u - 0)) (ct_leaves oT) = true. Proof. vm_compute. reflexivity. Qed.
  Lemma o_size : c_off oT = 0 /\ c_size oT = 12. Proof. vm_compute. auto. Qed.
  Lemma o_perm : Permutation operm (seq 0 12).
  Proof.
    apply Permutation_sym. apply NoDup_Permutation_bis; [apply seq_NoDup|vm_compute; lia|].
    intros x Hx. assert (H : forallb (fun y => existsb (Nat.eqb y) operm) (seq 0 12) = true) by (vm_compute; reflexivity).
    pose proof (proj1 (forallb_forall _ _) H x Hx) as Q. apply existsb_exists in Q. destruct Q as (y & Hy & Q). apply Nat.eqb_eq in Q. subst y. exact Hy.
  Qed.
  Lemma slice_whole : forall (l : list nat), slice 0 12 l = firstn 12 l. Proof. reflexivity. Qed.
  Lemma o_perm_slice : Permutation (slice (c_off oT) (c_size oT) operm) (seq (c_off oT) (c_size oT)).
  Proof.
    destruct o_size as [-> ->]. rewrite slice_whole, firstn_all2 by (vm_compute; lia). exact o_perm.
  Qed.
  Lemma o_injective : forall u, In u (ct_leaves oT) -> injective (F := Qf) (c_off u + c_size u - c_off oT) (fun x y => og (c_off oT + x) (c_off oT + y)).
  Proof.
    intros u Hu. pose proof (proj1 (forallb_forall _ _) o_leading u Hu) as Q. apply andb_true_iff in Q. destruct Q as [_ Q]. destruct o_size as [-> _].
    apply (z_tree_inj _ _ (oinv (c_off u + c_size u - 0))). exact Q.
  Qed.
  Lemma o_lu_built : match build_root (oB UpN) 200 oT oT with Some _ => true | None => false end = true. Proof. vm_compute. reflexivity. Qed.
  Lemma o_height : 3 * cheight oT <= 20. Proof. vm_compute. lia. Qed.
  Example C79_lu_hyps : exists A A', hbuild Qcc SyN (oB UpN) og (ocomp Qcc) 200 oT oT = Some A /\ lu Qf (fun L => L) (svd_id Qcc) oparts (DenseModel.iamax Qf qlt) 20 A = Some A' /\
    forall t (Bm : mat Qcc) q', 1 <= q' -> wf_mat Bm (c_size oT) q' ->
    exists X, lu_solve Qf oparts operm 20 t A' Bm = Some X /\ wf_mat X (c_size oT) q' /\ is_solution (F := Qf) SdL t (fun i j => oAu (c_off oT + i) (c_off oT + j)) (q 1) (c_size oT) q' (me Bm) (me X).
  Proof.
    pose proof o_lu_built as OB. destruct (build_root (oB UpN) 200 oT oT) as [root|] eqn:E; [|discriminate OB]. clear OB.
    assert (HB : hbuild Qcc SyN (oB UpN) og (ocomp Qcc) 200 oT oT = Some (hfill Qcc SyN (oB UpN) og (ocomp Qcc) root)) by (unfold hbuild; rewrite E; reflexivity).
    exists (hfill Qcc SyN (oB UpN) og (ocomp Qcc) root).
    assert (HN : c_off oT + c_size oT <= 12) by (destruct o_size as [-> ->]; lia).
    destruct (C79_lu_solve Qf oparts (fun L => L) (svd_id Qcc) (DenseModel.iamax Qf qlt) (recompress_id Qcc) (svd_id_exact Qcc) (iamax_rule Qf qlt qlt_order) 12 operm oAu (oB UpN) (ocomp Qcc) oT 200 _ 20
      o_perm HN o_perm_slice (o_whole UpN) eq_refl (ocomp_ok Qcc) (ocomp_pos Qcc) (ocomp_exact Qcc (fun i => q (Z.of_nat i + 2))) (fun u _ => o_adm UpN u) o_injective HB o_height) as (A' & L1 & L2).
    exists A'. split; [exact HB|]. split; [exact L1|exact L2].
  Qed.

  (** Cholesky: the same matrix, real, each of the two halves. *)
  Definition oR (i j : nat) : R := if i =? j then (INR i + 2)%R else 1%R.
  Definition oRg (i j : nat) : R := oR (nth i operm 0) (nth j operm 0).
  Lemma oRg_sym : forall i j, oRg i j = oRg j i.
  Proof. intros i j. unfold oRg, oR. rewrite (Nat.eqb_sym (nth j operm 0)). destruct (Nat.eqb_spec (nth i operm 0) (nth j operm 0)) as [->|]; reflexivity. Qed.
  Ltac rring := match goal with |- @eq _ ?a ?b => change (@eq R a b) end; cbv beta; ring.
  Lemma row_gen : forall n (p : nat -> nat), (forall i j, i < n -> j < n -> i <> j -> (p i =? p j) = false) ->
    forall i x, i < n -> sum (K := Rc) n (fun j => (oR (p i) (p j) * x j)%R) = ((INR (p i) + 1) * x i + sum (K := Rc) n x)%R.
  Proof.
    intros n p Hp i x Hi. transitivity (sum (K := Rc) n (fun j => ((if Nat.eqb i j then (INR (p i) + 1) * x i else 0) + x j)%R)).
    - apply (sum_ext Rc). intros j Hj. unfold oR. destruct (Nat.eqb_spec i j) as [<-|N]; [rewrite Nat.eqb_refl; rring|]. rewrite (Hp i j Hi Hj N). rring.
    - rewrite (sum_add Rc). f_equal. rewrite (sum_single Rc n i); [rewrite Nat.eqb_refl; reflexivity|exact Hi|]. intros j _ N. destruct (Nat.eqb_spec i j); [congruence|reflexivity].
  Qed.
  Lemma pos_gen : forall n (p : nat -> nat), (forall i j, i < n -> j < n -> i <> j -> (p i =? p j) = false) ->
    forall x : nat -> R, (exists i, i < n /\ x i <> 0%R) -> (0 < sum (K := Rc) n (fun i => x i * sum (K := Rc) n (fun j => oR (p i) (p j) * x j)))%R.
  Proof.
    intros n p Hp x (i0 & Hi0 & Hx). set (s := sum (K := Rc) n x).
    assert (E : sum (K := Rc) n (fun i => (x i * sum (K := Rc) n (fun j => oR (p i) (p j) * x j))%R) = (sum (K := Rc) n (fun i => ((INR (p i) + 1) * (x i * x i))%R) + s * s)%R).
    { transitivity (sum (K := Rc) n (fun i => ((INR (p i) + 1) * (x i * x i) + x i * s)%R)).
      - apply (sum_ext Rc). intros i Hi. rewrite (row_gen n p Hp i x Hi). fold s. rring.
      - rewrite (sum_add Rc). exact (f_equal (Rplus _) (sum_mul_r Rc n s x)). }
    rewrite E.
    assert (P : forall i, (0 <= (INR (p i) + 1) * (x i * x i))%R) by (intros i; pose proof (pos_INR (p i)); nra).
    destruct (Rle_lt_or_eq_dec 0 (sum (K := Rc) n (fun i => ((INR (p i) + 1) * (x i * x i))%R))) as [Q|Q].
    - apply rsum_nonneg. intros i _. apply P.
    - nra.
    - exfalso. pose proof (rsum_zero n _ P (eq_sym Q) i0 Hi0) as Z0. pose proof (pos_INR (p i0)). cbn beta in Z0. nra.
  Qed.
  Lemma oRg_pos : forall x : nat -> R, (exists i, i < 12 /\ x i <> 0%R) -> (0 < sum (K := Rc) 12 (fun i => x i * sum (K := Rc) 12 (fun j => oRg i j * x j)))%R.
  Proof. exact (pos_gen 12 (fun i => nth i operm 0) operm_inj). Qed.
  Lemma o_chol_built : forall u, In u [UpL; UpU] -> match build_root (oB u) 200 oT oT with Some _ => true | None => false end = true.
  Proof. intros u [<-|[<-|[]]]; vm_compute; reflexivity. Qed.
  Lemma o_chol : forall u, u <> UpN -> In u [UpL; UpU]. Proof. intros [| |] H; cbn; auto; congruence. Qed.
  Example C79_cholesky_hyps : forall u, u <> UpN -> exists A A', hbuild Rc SyS (oB u) oRg (ocomp Rc) 200 oT oT = Some A /\
    cholesky Rf (fun L => L) (svd_id Rc) oparts (fun d => Rltb 0 d) sqrt TrT 20 u A = Some (A', true) /\
    forall (Bm : mat Rc) q', 1 <= q' -> wf_mat Bm (c_size oT) q' ->
    exists X, cholesky_solve Rf oparts TrT operm 20 u A' Bm = Some X /\ wf_mat X (c_size oT) q' /\ is_solution (F := Rf) SdL TrN (fun i j => oR (c_off oT + i) (c_off oT + j)) 1%R (c_size oT) q' (me Bm) (me X).
  Proof.
    intros u Hu. pose proof (o_chol_built u (o_chol u Hu)) as OB. destruct (build_root (oB u) 200 oT oT) as [root|] eqn:E; [|discriminate OB]. clear OB.
    assert (HB : hbuild Rc SyS (oB u) oRg (ocomp Rc) 200 oT oT = Some (hfill Rc SyS (oB u) oRg (ocomp Rc) root)) by (unfold hbuild; rewrite E; reflexivity).
    exists (hfill Rc SyS (oB u) oRg (ocomp Rc) root).
    assert (HN : c_off oT + c_size oT <= 12) by (destruct o_size as [-> ->]; lia).
    assert (PD : forall x : nat -> R, (exists i, i < c_size oT /\ x i <> 0%R) ->
      (0 < sum (K := Rc) (c_size oT) (fun i => x i * sum (K := Rc) (c_size oT) (fun j => oRg (c_off oT + i)%nat (c_off oT + j)%nat * x j)))%R).
    { destruct o_size as [-> ->]. exact oRg_pos. }
    destruct (C79_cholesky_solve_real oparts (fun L => L) (svd_id Rc) (recompress_id Rc) (svd_id_exact Rc) 12 operm oR (oB u) (ocomp Rc) oT 200 _ 20
      o_perm HN o_perm_slice (o_whole u) eq_refl eq_refl Hu o_two_way (ocomp_ok Rc) (ocomp_pos Rc) (ocomp_exact Rc (fun i => (INR i + 2)%R)) (fun t _ => o_adm u t)
      (fun i j _ _ => oRg_sym _ _) PD HB o_height) as (A' & L1 & L2).
    exists A'. split; [exact HB|]. split; [exact L1|exact L2].
  Qed.
End Example.
