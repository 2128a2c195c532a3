(** * Root blocks and expansion to dense. *)

From Coq Require Import List Arith Bool Lia Ring Permutation.
From Verif Require Import ClusterModel ClusterSpec IOModel BlockModel BlockSpec BlockProofs BlockFinal BlockSym Algebra BlasModel BlasProofs
  HMatModel HMatSpec HMatProofs HMatLoops HMatProducts HMatBuild.
Import ListNotations.

Section T.
  Variable K : Coef.
  Notation C := (car K).
  Notation "0" := (c0 K).
  Notation "1" := (c1 K).
  Notation "x + y" := (cadd K x y).
  Notation "x * y" := (cmul K x y).
  Add Ring Kring6 : (c_ring K).

  (** ** The public product functions *)
  Section Top.
    Variables (A : hmat K) (L Y : list (hinfo K)) (sy : symc) (M : nat -> nat -> C).
    Let r := rt_val A.
    Hypothesis HA : hleaves K A = Some (L, Y).
    Hypothesis H : holds_matrix r L Y sy M.
    (** only leaves hold data *)
    Hypothesis Hd : rt_children A = [] \/ h_data r = DNone.

    Lemma top_cases : h_data r = DNone \/ (h_data r <> DNone /\ L = [r]).
    Proof.
      destruct Hd as [E|E]; [right|left; exact E]. destruct A as [i cs]. cbn in E. subst cs. subst r. cbn [rt_val] in *.
      rewrite root_leaf in HA. injection HA as <- _. split; [|reflexivity].
      destruct (wf_leaves _ _ _ _ _ (hm_wf _ _ _ _ _ _ H) i (or_introl eq_refl)) as [(_ & _ & W) _]. destruct (h_data i); [contradiction|discriminate|discriminate].
    Qed.

    Lemma leaf_product : forall run t mu alpha beta x y, L = [r] ->
      adds K run (c_size (out_cl K t r)) (c_size (in_cl K t r)) mu alpha beta (op_fun t (leaf_entry r)) ->
      (c_size (in_cl K t r) * mu <= length x)%nat -> (c_size (out_cl K t r) * mu <= length y)%nat ->
      exists y', run x y = Some y' /\ is_product r M t mu alpha beta x y y'.
    Proof.
      intros run t mu alpha beta x y EL Ha Hx Hy. destruct (Ha x y Hx Hy) as (y' & E1 & E2 & E3 & E4). exists y'. split; [exact E1|].
      unfold is_product. change (if is_N t then h_t r else h_s r) with (out_cl K t r) in *. change (if is_N t then h_s r else h_t r) with (in_cl K t r).
      split; [exact E2|]. split; [|exact E4]. intros i c Hi Hc. rewrite E3 by assumption. do 2 f_equal. apply sum_ext. intros j Hj. f_equal.
      assert (In r L) as HI by (rewrite EL; left; reflexivity).
      pose proof (hm_entries _ _ _ _ _ _ H r HI) as R. unfold op_fun, out_cl, in_cl in *. destruct t; cbn [is_N] in *; rewrite R by assumption; reflexivity.
    Qed.

    Lemma top_compat : forall t, compat K t sy -> L = [r] -> wf_leaf r /\ compat K t (h_sym r).
    Proof.
      intros t Hc EL. assert (In r L) as HI by (rewrite EL; left; reflexivity).
      destruct (wf_leaves _ _ _ _ _ (hm_wf _ _ _ _ _ _ H) r HI) as [W [E|E]]; (split; [exact W|]); rewrite E; [exact I|exact Hc].
    Qed.

    Theorem vec_ok : forall t alpha beta x y, compat K t sy -> beta_ok K beta r ->
      (c_size (in_cl K t r) <= length x)%nat -> (c_size (out_cl K t r) <= length y)%nat ->
      exists y', add_hmatrix_vector_product K t alpha A x beta y = Some y' /\ is_product r M t 1 alpha beta x y y'.
    Proof.
      intros t alpha beta x y Hc Hb Hx Hy. unfold add_hmatrix_vector_product. fold r. destruct top_cases as [E|[E EL]].
      - rewrite E. exact (seq_vec_ok K A L Y sy M HA H t Hc alpha beta x y Hx Hy).
      - destruct (top_compat t Hc EL) as [W Hc'].
        destruct (h_data r) eqn:Ed; [congruence| |]; apply (leaf_product (fun x y => leaf_vec K t alpha r x beta y)); try lia; try assumption;
          apply leaf_vec_adds; assumption.
    Qed.

    Theorem mat_ok : forall t mu alpha beta x y, (1 <= mu)%nat -> compat K t sy -> beta_ok K beta r ->
      (c_size (in_cl K t r) * mu <= length x)%nat -> (c_size (out_cl K t r) * mu <= length y)%nat ->
      exists y', add_hmatrix_matrix_product_row_major K t alpha A x beta y mu = Some y' /\ is_product r M t mu alpha beta x y y'.
    Proof.
      intros t mu alpha beta x y Hmu Hc Hb Hx Hy. unfold add_hmatrix_matrix_product_row_major. fold r. destruct top_cases as [E|[E EL]].
      - rewrite E. exact (seq_mat_ok K A L Y sy M HA H t Hc mu alpha beta x y Hmu Hx Hy).
      - destruct (top_compat t Hc EL) as [W Hc'].
        destruct (h_data r) eqn:Ed; [congruence| |]; apply (leaf_product (fun x y => leaf_mat K t TrN alpha r x beta y mu)); try assumption;
          apply leaf_mat_adds; assumption.
    Qed.
  End Top.

  (** ** Writes at given positions *)
  Section Writes.
    Variables (inR inC : nat -> Prop) (pos : nat -> nat -> nat) (M : nat -> nat -> C) (b0 : list C).
    Hypothesis pos_in : forall i j, inR i -> inC j -> (pos i j < length b0)%nat.
    Hypothesis pos_inj : forall i j i' j', inR i -> inC j -> inR i' -> inC j' -> pos i j = pos i' j' -> i = i' /\ j = j'.

    Definition good (D : nat -> nat -> Prop) (b : list C) : Prop :=
      length b = length b0 /\ (forall i j, inR i -> inC j -> D i j -> get b (pos i j) = M i j) /\
      (forall p, (forall i j, inR i -> inC j -> p <> pos i j) -> get b p = get b0 p).

    Lemma set1_ok : forall p v (b : list C), (p < length b)%nat ->
      exists b', set1 K p v b = Some b' /\ length b' = length b /\ forall q, get b' q = if (q =? p)%nat then v else get b q.
    Proof.
      intros p v b Hp. unfold set1. destruct (Nat.ltb_spec p (length b)); [|lia].
      exists (firstn p b ++ v :: skipn (S p) b). split; [reflexivity|].
      assert (E : length (firstn p b) = p) by (rewrite firstn_length; lia). split.
      - rewrite app_length, E. cbn [length]. rewrite skipn_length. lia.
      - intros q. rewrite get_app, E. destruct (Nat.ltb_spec q p).
        + rewrite get_firstn. destruct (Nat.ltb_spec q p); [|lia]. destruct (Nat.eqb_spec q p); [lia|reflexivity].
        + destruct (Nat.eqb_spec q p) as [->|Hn].
          * rewrite Nat.sub_diag. reflexivity.
          * destruct (q - p)%nat as [|k] eqn:Ek; [lia|]. change (get (v :: skipn (S p) b) (S k)) with (get (skipn (S p) b) k).
            rewrite get_skipn. f_equal. lia.
    Qed.

    Lemma good_step : forall D b i j, good D b -> inR i -> inC j ->
      exists b', set1 K (pos i j) (M i j) b = Some b' /\ good (fun i' j' => D i' j' \/ (i' = i /\ j' = j)) b'.
    Proof.
      intros D b i j (G1 & G2 & G3) Hi Hj. destruct (set1_ok (pos i j) (M i j) b) as (b' & E1 & E2 & E3); [rewrite G1; apply pos_in; assumption|].
      exists b'. split; [exact E1|]. split; [lia|]. split.
      - intros i' j' Hi' Hj' HD. rewrite E3. destruct (Nat.eqb_spec (pos i' j') (pos i j)) as [E|E].
        + destruct (pos_inj _ _ _ _ Hi' Hj' Hi Hj E) as [-> ->]. reflexivity.
        + destruct HD as [HD|[-> ->]]; [apply G2; assumption|congruence].
      - intros p Hp. rewrite E3. destruct (Nat.eqb_spec p (pos i j)) as [E|E]; [destruct (Hp i j Hi Hj E)|apply G3, Hp].
    Qed.

    Lemma good_weaken : forall (D D' : nat -> nat -> Prop) b, good D b -> (forall i j, inR i -> inC j -> D' i j -> D i j) -> good D' b.
    Proof. intros D D' b (G1 & G2 & G3) HD. split; [exact G1|]. split; [|exact G3]. intros i j Hi Hj Hd. apply G2; auto. Qed.

    Lemma good_loop : forall (X : Type) (f : X -> list C -> option (list C)) (E : X -> nat -> nat -> Prop) (D0 : nat -> nat -> Prop) (l : list X),
      (forall a (D : nat -> nat -> Prop) b, In a l -> (forall i j, D0 i j -> D i j) -> good D b ->
        exists b', f a b = Some b' /\ good (fun i j => D i j \/ E a i j) b') ->
      forall (D : nat -> nat -> Prop) b, (forall i j, D0 i j -> D i j) -> good D b ->
      exists b', fold_opt K f l b = Some b' /\ good (fun i j => D i j \/ exists a, In a l /\ E a i j) b'.
    Proof.
      intros X f E D0. induction l as [|a l IH]; intros Hf D b H0 G.
      - exists b. split; [reflexivity|]. eapply good_weaken; [exact G|]. intros i j _ _ [Hd|(a & [] & _)]. exact Hd.
      - cbn [fold_opt]. destruct (Hf a D b (or_introl eq_refl) H0 G) as (b1 & E1 & G1). rewrite E1.
        destruct (IH (fun a' D' b' Ha => Hf a' D' b' (or_intror Ha)) (fun i j => D i j \/ E a i j) b1) as (b2 & E2 & G2); [auto|exact G1|].
        exists b2. split; [exact E2|]. eapply good_weaken; [exact G2|]. intros i j _ _ [Hd|(a' & [<-|Ha] & He)]; [auto|auto|]. right. exists a'. auto.
    Qed.
  End Writes.

  Lemma In_pairs : forall nr nc j k, In (j, k) (pairs nr nc) <-> (j < nr)%nat /\ (k < nc)%nat.
  Proof.
    intros nr nc j k. unfold pairs. rewrite in_flat_map. split.
    - intros (k' & Hk & Hj). apply in_map_iff in Hj. destruct Hj as (j' & E & Hj). injection E as -> ->. apply in_seq in Hk, Hj. lia.
    - intros [Hj Hk]. exists k. split; [apply in_seq; lia|]. apply in_map_iff. exists j. split; [reflexivity|apply in_seq; lia].
  Qed.

  (** ** Dense copies of the leaves *)
  (** the block copied is the block that the leaf represents: full rank-r blocks with r > 0, both triangles stored *)
  Definition dense_ready (h : hinfo K) : Prop :=
    match h_data h with
    | DLow Lr => lrank Lr <> O
    | DDense A => forall i j, (i < c_size (h_t h))%nat -> (j < c_size (h_s h))%nat -> me A i j = leaf_entry h i j
    | DNone => True
    end.

  Lemma leaf_dense_ok : forall h, wf_leaf h -> dense_ready h ->
    exists D, leaf_dense K h = Some D /\ forall i j, (i < c_size (h_t h))%nat -> (j < c_size (h_s h))%nat -> me D i j = leaf_entry h i j.
  Proof.
    intros h (S1 & S2 & W) R. unfold leaf_dense, dense_ready in *. destruct (h_data h) as [|A|Lr] eqn:Ed; [contradiction| |].
    - exists A. split; [reflexivity|]. exact R.
    - destruct W as ((U1 & U2 & U3) & (V1 & V2 & V3)). unfold lr_to_dense.
      destruct (gemm_ok K TrN TrN (mr (lU Lr)) (mc (lV Lr)) (mc (lU Lr)) 1 (md (lU Lr)) (md (lV Lr)) (mr (lU Lr)) (mr (lV Lr)) 0
        (repeat 0 (c_size (h_t h) * c_size (h_s h))) (mr (lU Lr))) as (Cb & E1 & E2 & E3); cbn [rows_of is_N].
      + lia.
      + lia.
      + rewrite V1. lia.
      + rewrite V1. unfold lrank. lia.
      + lia.
      + lia.
      + rewrite U1. apply holds_full. unfold lrank in U3. exact U3.
      + rewrite V1, V2. unfold lrank. apply holds_full. exact V3.
      + rewrite U1, V2. apply holds_full. apply repeat_length.
      + rewrite E1. eexists. split; [reflexivity|]. intros i j Hi Hj. unfold leaf_entry. rewrite Ed. unfold lr_entry, me. cbn [md mr].
        rewrite U1 in E3 |- *. rewrite E3 by exact Hi. rewrite V2.
        destruct (Nat.ltb_spec i (c_size (h_t h))); [|lia]. destruct (Nat.ltb_spec j (c_size (h_s h))); [|lia]. cbn [andb].
        rewrite get_repeat. unfold lrank. cbn [op_entry]. ring.
  Qed.

  Section Dense.
    Variables (A : hmat K) (L Y : list (hinfo K)) (sy : symc) (M : nat -> nat -> C).
    Let r := rt_val A.
    Hypothesis HA : hleaves K A = Some (L, Y).
    Hypothesis H : holds_matrix r L Y sy M.
    Hypothesis Hready : forall h, In h L -> dense_ready h.
    Variables (tp sp : nat -> nat).
    Let inR i := in_iv i (interval (h_t r)) = true.
    Let inC j := in_iv j (interval (h_s r)) = true.
    (** the permutations map the clusters of the root to themselves *)
    Hypothesis tp_in : forall i, inR i -> inR (tp i).
    Hypothesis sp_in : forall j, inC j -> inC (sp j).
    Hypothesis tp_inj : forall i i', inR i -> inR i' -> tp i = tp i' -> i = i'.
    Hypothesis sp_inj : forall i i', inC i -> inC i' -> sp i = sp i' -> i = i'.
    Let pos i j := ((tp i - c_off (h_t r)) + (sp j - c_off (h_s r)) * c_size (h_t r))%nat.
    Variable b0 : list C.
    Hypothesis Hlen : (c_size (h_t r) * c_size (h_s r) <= length b0)%nat.

    Lemma posin : forall i j, inR i -> inC j -> (pos i j < length b0)%nat.
    Proof. intros i j Hi Hj. apply tp_in in Hi. apply sp_in in Hj. unfold inR, inC in *. apply in_ivb in Hi, Hj. unfold pos. nia. Qed.
    Lemma posinj : forall i j i' j', inR i -> inC j -> inR i' -> inC j' -> pos i j = pos i' j' -> i = i' /\ j = j'.
    Proof.
      intros i j i' j' Hi Hj Hi' Hj' E. unfold pos in E.
      pose proof (tp_in i Hi) as Q1. pose proof (tp_in i' Hi') as Q2. pose proof (sp_in j Hj) as Q3. pose proof (sp_in j' Hj') as Q4.
      unfold inR, inC in Q1, Q2, Q3, Q4. apply in_ivb in Q1, Q2, Q3, Q4.
      set (n := c_size (h_t r)) in *. set (a := (tp i - c_off (h_t r))%nat) in *. set (a' := (tp i' - c_off (h_t r))%nat) in *.
      set (c := (sp j - c_off (h_s r))%nat) in *. set (c' := (sp j' - c_off (h_s r))%nat) in *.
      assert (Ea : a = a'). { rewrite <- (index_mod a c n), <- (index_mod a' c' n) by (subst a a' n; lia). rewrite E. reflexivity. }
      assert (Ec : c = c'). { rewrite <- (index_div a c n), <- (index_div a' c' n) by (subst a a' n; lia). rewrite E. reflexivity. }
      split; [apply tp_inj; try assumption; subst a a'; lia|apply sp_inj; try assumption; subst c c'; lia].
    Qed.

    Notation G := (good inR inC pos M b0).
    Lemma G0 : G (fun _ _ => False) b0.
    Proof. split; [reflexivity|]. split; [intros i j _ _ []|reflexivity]. Qed.

    Lemma dense_loop_ok : exists b1, dense_loop K tp sp (c_off (h_t r)) (c_off (h_s r)) (c_size (h_t r)) L b0 = Some b1 /\
      G (fun i j => exists h, In h L /\ hcovers i j h = true) b1.
    Proof.
      unfold dense_loop.
      destruct (good_loop inR inC pos M b0 (hinfo K)) with (f := fun (h : hinfo K) b =>
        match leaf_dense K h with
        | Some D => fold_opt K (fun jk b1 => set1 K ((tp (fst jk + c_off (h_t h)) - c_off (h_t r)) + (sp (snd jk + c_off (h_s h)) - c_off (h_s r)) * c_size (h_t r))
            (me D (fst jk) (snd jk)) b1) (pairs (c_size (h_t h)) (c_size (h_s h))) b
        | None => None end) (E := fun (h : hinfo K) i j => hcovers i j h = true) (D0 := fun _ _ : nat => False) (l := L) (D := fun _ _ : nat => False) (b := b0)
        as (b1 & E1 & G1).
      - intros h D b Hh _ GD. destruct (wf_leaves _ _ _ _ _ (hm_wf _ _ _ _ _ _ H) h Hh) as [W _].
        destruct (wf_in _ _ _ _ _ (hm_wf _ _ _ _ _ _ H) h Hh) as [C1 C2]. apply contains_iff in C1, C2.
        destruct (leaf_dense_ok h W (Hready h Hh)) as (Dm & -> & HD).
        destruct (good_loop inR inC pos M b0 (nat*nat)%type) with
          (f := fun jk b1 => set1 K ((tp (fst jk + c_off (h_t h)) - c_off (h_t r)) + (sp (snd jk + c_off (h_s h)) - c_off (h_s r)) * c_size (h_t r)) (me Dm (fst jk) (snd jk)) b1)
          (E := fun jk i j => i = (fst jk + c_off (h_t h))%nat /\ j = (snd jk + c_off (h_s h))%nat) (D0 := fun _ _ : nat => False)
          (l := pairs (c_size (h_t h)) (c_size (h_s h))) (D := D) (b := b) as (b1 & E1 & G1).
        + intros [j k] D' b' Hjk _ GD'. apply In_pairs in Hjk. destruct Hjk as [Hj Hk]. cbn [fst snd].
          rewrite HD by assumption. rewrite (hm_entries _ _ _ _ _ _ H h Hh j k Hj Hk).
          replace (c_off (h_t h) + j)%nat with (j + c_off (h_t h))%nat by lia. replace (c_off (h_s h) + k)%nat with (k + c_off (h_s h))%nat by lia.
          apply (good_step inR inC pos M b0 posin posinj D' b' (j + c_off (h_t h))%nat (k + c_off (h_s h))%nat GD'); apply in_ivb; lia.
        + intros i j [].
        + exact GD.
        + exists b1. split; [exact E1|]. eapply good_weaken; [exact G1|]. intros i j _ _ [Hd|Hd]; [left; exact Hd|right].
          unfold hcovers in Hd. apply andb_true_iff in Hd. destruct Hd as [Q1 Q2]. apply in_ivb in Q1, Q2.
          exists (i - c_off (h_t h), j - c_off (h_s h))%nat. rewrite In_pairs. cbn [fst snd]. lia.
      - intros i j [].
      - exact G0.
      - exists b1. split; [exact E1|]. eapply good_weaken; [exact G1|]. intros i j _ _ Hd. right. exact Hd.
    Qed.

    (** result: entry (i,j) of the matrix at the position of (i,j), the rest of the memory unchanged *)
    Definition expanded (b : list C) : Prop :=
      length b = length b0 /\ (forall i j, inR i -> inC j -> get b (pos i j) = M i j) /\
      (forall p, (forall i j, inR i -> inC j -> p <> pos i j) -> get b p = get b0 p).

    Lemma cover_all : forall i j, inR i -> inC j ->
      (exists h, In h L /\ hcovers i j h = true) \/ (exists h, In h Y /\ hcovers j i h = true).
    Proof.
      intros i j Hi Hj. pose proof (wf_once _ _ _ _ _ (hm_wf _ _ _ _ _ _ H) i j Hi Hj) as O. unfold count in O.
      destruct (filter (hcovers i j) L) as [|h l] eqn:E.
      - destruct (filter (hcovers j i) Y) as [|h l] eqn:E2; [cbn in O; lia|]. right. exists h. apply filter_In. rewrite E2. left; reflexivity.
      - left. exists h. apply filter_In. rewrite E. left; reflexivity.
    Qed.

    Lemma expanded_nosym : Y = [] -> exists b, dense_loop K tp sp (c_off (h_t r)) (c_off (h_s r)) (c_size (h_t r)) L b0 = Some b /\ expanded b.
    Proof.
      intros EY. destruct dense_loop_ok as (b1 & E1 & G1). exists b1. split; [exact E1|]. destruct G1 as (A1 & A2 & A3). split; [exact A1|]. split; [|exact A3].
      intros i j Hi Hj. apply A2; try assumption. destruct (cover_all i j Hi Hj) as [Q|(h & Hh & _)]; [exact Q|]. rewrite EY in Hh. destruct Hh.
    Qed.

    Theorem user_copy_ok : compat K TrN sy -> (Y <> [] -> forall i, inR i -> inC i -> sp i = tp i) ->
      exists b, copy_to_dense_in_user_numbering K tp sp A b0 = Some b /\ expanded b.
    Proof.
      intros Hc Hsp.
      assert (HYin : forall h, In h Y -> forall i, in_iv i (interval (h_t h)) = true \/ in_iv i (interval (h_s h)) = true -> inR i /\ inC i).
      { intros h Hh i Hi. destruct (wf_sub _ _ _ _ _ (hm_wf _ _ _ _ _ _ H) h Hh) as (HL & Q1 & Q2).
        destruct (wf_in _ _ _ _ _ (hm_wf _ _ _ _ _ _ H) h HL) as [Q3 Q4]. apply contains_iff in Q1, Q2, Q3, Q4.
        unfold inR, inC. rewrite !in_ivb in *. lia. }
      unfold copy_to_dense_in_user_numbering. rewrite HA. fold r.
      assert (DY : Y = [] \/ Y <> []) by (destruct Y; [left; reflexivity|right; discriminate]). destruct DY as [EY|NE].
      - destruct (expanded_nosym EY) as (b & E1 & X). rewrite E1. exists b. split; [|exact X]. rewrite EY. destruct (sym_is_N (h_lsym r)); reflexivity.
      - destruct dense_loop_ok as (b1 & E1 & G1). rewrite E1.
        destruct (wf_lsym _ _ _ _ _ (hm_wf _ _ _ _ _ _ H) NE) as [Es NN].
        assert (Ef : sym_is_N (h_lsym r) = false) by (rewrite Es; destruct sy; [congruence|reflexivity|reflexivity|reflexivity]). rewrite Ef.
        destruct (good_loop inR inC pos M b0 (hinfo K)) with (f := fun (h : hinfo K) b => fold_opt K (fun (jk : nat * nat) b2 =>
             set1 K ((sp (snd jk + c_off (h_s h)) - c_off (h_t r)) + (tp (fst jk + c_off (h_t h)) - c_off (h_s r)) * c_size (h_t r))
               (if sym_is_S (h_lsym r) then get b2 ((tp (fst jk + c_off (h_t h)) - c_off (h_t r)) + (sp (snd jk + c_off (h_s h)) - c_off (h_s r)) * c_size (h_t r))
                else cconj K (get b2 ((tp (fst jk + c_off (h_t h)) - c_off (h_t r)) + (sp (snd jk + c_off (h_s h)) - c_off (h_s r)) * c_size (h_t r)))) b2)
             (pairs (c_size (h_t h)) (c_size (h_s h))) b)
          (E := fun (h : hinfo K) i j => hcovers j i h = true) (D0 := fun i j => exists h : hinfo K, In h L /\ hcovers (K:=K) i j h = true) (l := Y)
          (D := fun i j => exists h : hinfo K, In h L /\ hcovers (K:=K) i j h = true) (b := b1) as (b2 & E2 & G2).
        + intros h D b Hh HD GD. destruct (wf_sub _ _ _ _ _ (hm_wf _ _ _ _ _ _ H) h Hh) as (HL & _).
          destruct (good_loop inR inC pos M b0 (nat*nat)%type) with (f := fun (jk : nat * nat) b2 =>
               set1 K ((sp (snd jk + c_off (h_s h)) - c_off (h_t r)) + (tp (fst jk + c_off (h_t h)) - c_off (h_s r)) * c_size (h_t r))
               (if sym_is_S (h_lsym r) then get b2 ((tp (fst jk + c_off (h_t h)) - c_off (h_t r)) + (sp (snd jk + c_off (h_s h)) - c_off (h_s r)) * c_size (h_t r))
                else cconj K (get b2 ((tp (fst jk + c_off (h_t h)) - c_off (h_t r)) + (sp (snd jk + c_off (h_s h)) - c_off (h_s r)) * c_size (h_t r)))) b2)
            (E := fun jk i j => i = (snd jk + c_off (h_s h))%nat /\ j = (fst jk + c_off (h_t h))%nat)
            (D0 := fun i j => exists h : hinfo K, In h L /\ hcovers (K:=K) i j h = true) (l := pairs (c_size (h_t h)) (c_size (h_s h))) (D := D) (b := b) as (b3 & E3 & G3).
          * intros [j k] D' b' Hjk HD' GD'. apply In_pairs in Hjk. destruct Hjk as [Hj Hk]. cbn [fst snd].
            set (i1 := (j + c_off (h_t h))%nat). set (i2 := (k + c_off (h_s h))%nat).
            assert (I1 : in_iv i1 (interval (h_t h)) = true) by (apply in_ivb; subst i1; lia).
            assert (I2 : in_iv i2 (interval (h_s h)) = true) by (apply in_ivb; subst i2; lia).
            destruct (HYin h Hh i1 (or_introl I1)) as [R1 C1]. destruct (HYin h Hh i2 (or_intror I2)) as [R2 C2].
            assert (V : get b' ((tp i1 - c_off (h_t r)) + (sp i2 - c_off (h_s r)) * c_size (h_t r))%nat = M i1 i2).
            { destruct GD' as (_ & GG & _). apply (GG i1 i2 R1 C2). apply HD'. exists h. split; [exact HL|]. unfold hcovers. rewrite I1, I2. reflexivity. }
            rewrite V.
            assert (EM : (if sym_is_S (h_lsym r) then M i1 i2 else cconj K (M i1 i2)) = M i2 i1).
            { rewrite (hm_sym _ _ _ _ _ _ H h Hh i1 i2 I1 I2). rewrite Es. unfold compat in Hc. destruct sy; cbn; [congruence|reflexivity|reflexivity|contradiction]. }
            rewrite EM.
            replace ((sp i2 - c_off (h_t r)) + (tp i1 - c_off (h_s r)) * c_size (h_t r))%nat with (pos i2 i1).
            -- apply (good_step inR inC pos M b0 posin posinj D' b' i2 i1 GD'); assumption.
            -- unfold pos. rewrite (Hsp NE i2 R2 C2), <- (Hsp NE i1 R1 C1). reflexivity.
          * exact HD.
          * exact GD.
          * exists b3. split; [exact E3|]. eapply good_weaken; [exact G3|]. intros i j _ _ [Hd|Hd]; [left; exact Hd|right].
            unfold hcovers in Hd. apply andb_true_iff in Hd. destruct Hd as [Q1 Q2]. apply in_ivb in Q1, Q2.
            exists (j - c_off (h_t h), i - c_off (h_s h))%nat. rewrite In_pairs. cbn [fst snd]. lia.
        + auto.
        + exact G1.
        + exists b2. split; [exact E2|]. destruct G2 as (A1 & A2 & A3). split; [exact A1|]. split; [|exact A3].
          intros i j Hi Hj. apply A2; try assumption. destruct (cover_all i j Hi Hj) as [Q|Q]; [left; exact Q|right; exact Q].
    Qed.
  End Dense.
End T.
