(** * The structure of hierarchical matrices used by the products. *)

From Coq Require Import List Arith ZArith Bool Lia Ring Permutation.
From Verif Require Import ClusterModel ClusterSpec ClusterProofs IOModel IOSpec IOProofs BlockModel BlockSpec BlockProofs BlockSym Algebra BlasModel BlasProofs
  HMatModel HMatSpec HMatProofs HMatProducts HMatBuild HMatTop DistModel DistVec ArithModel ArithSpec ArithDense ArithLr.
Import ListNotations.

(** ** Cluster trees *)
Section Clusters.
  Variable parts : ctree -> list ctree.
  Notation ct := (cluster_tree parts).

  Lemma ct_size : forall c, ct c -> 1 <= c_size c.
  Proof. intros c H. destruct H. assumption. Qed.
  Lemma ckids_leaf : forall c, is_leaf c = true -> ckids c = [c].
  Proof. intros [i [|k ks]] H; [reflexivity|discriminate]. Qed.
  Lemma ckids_node : forall c, is_leaf c = false -> ckids c = ct_children c.
  Proof. intros [i [|k ks]] H; [discriminate|reflexivity]. Qed.
  Lemma ckids_nonempty : forall c, ckids c <> [].
  Proof. intros [i [|k ks]]; discriminate. Qed.
  Lemma ckids_tiles : forall c, ct c -> tiles (c_off c) (c_off c + c_size c) (map interval (ckids c)).
  Proof.
    intros c H. destruct H as [i cs H1 H2 H3 H4 H5 H6]. destruct cs as [|k ks].
    - cbn. split; reflexivity.
    - apply (H2 ltac:(discriminate)).
  Qed.
  Lemma ckids_ct : forall c k, ct c -> In k (ckids c) -> ct k.
  Proof.
    intros c k H Hk. destruct H as [i cs H1 H2 H3 H4 H5 H6]. destruct cs as [|x ks]; [|apply H6, Hk].
    destruct Hk as [<-|[]]. constructor; assumption.
  Qed.
  Lemma ckids_rank : forall c k, ct c -> In k (ckids c) -> (0 <= c_rank k)%Z.
  Proof.
    intros c k H Hk. destruct H as [i cs H1 H2 H3 H4 H5 H6]. destruct cs as [|x ks]; [|apply H4, Hk].
    destruct Hk as [<-|[]]. unfold c_rank. cbn [ct_info]. destruct (Z_lt_le_dec (ci_rank i) 0); [|assumption]. destruct (H5 l) as [N _]. congruence.
  Qed.
  Lemma ckids_in : forall c k, ct c -> In k (ckids c) -> c_off c <= c_off k /\ c_off k + c_size k <= c_off c + c_size c.
  Proof. intros c k H Hk. exact (tiles_in _ _ _ _ (ckids_tiles c H) Hk). Qed.
  Lemma ckids_depth : forall c k, ct c -> is_leaf c = false -> In k (ckids c) -> c_depth k = S (c_depth c).
  Proof. intros c k H L Hk. destruct H as [i cs H1 H2 H3 H4 H5 H6]. destruct cs; [discriminate|]. apply H3, Hk. Qed.
  Lemma ckids_inj : forall c a b, ct c -> In a (ckids c) -> In b (ckids c) -> c_off a = c_off b -> a = b.
  Proof.
    intros c a b H Ha Hb E. destruct (tiles_pair _ _ _ a b (ckids_tiles c H) Ha Hb) as [Q|Q]; [exact Q|].
    pose proof (ct_size _ (ckids_ct c a H Ha)). pose proof (ct_size _ (ckids_ct c b H Hb)). unfold disj in Q. lia.
  Qed.
  Lemma tiles_nodup : forall l lo hi, (forall k, In k l -> 1 <= c_size k) -> tiles lo hi (map interval l) -> NoDup l.
  Proof.
    induction l as [|a l IH]; intros lo hi Hp H; constructor.
    - intros Ha. cbn [map] in H. unfold interval in H at 1. destruct H as [H1 H2]. pose proof (tiles_in _ _ _ a H2 Ha) as Q.
      pose proof (Hp a (or_introl eq_refl)). unfold c_size, c_off in *. lia.
    - cbn [map] in H. unfold interval in H at 1. destruct H as [H1 H2]. exact (IH _ _ (fun k Hk => Hp k (or_intror Hk)) H2).
  Qed.
  Lemma ckids_nodup : forall c, ct c -> NoDup (ckids c).
  Proof. intros c H. eapply tiles_nodup; [|apply ckids_tiles, H]. intros k Hk. apply ct_size, (ckids_ct c); assumption. Qed.

  Lemma ceq_refl : forall c, ceq c c = true.
  Proof. intros c. unfold ceq. rewrite !Nat.eqb_refl. reflexivity. Qed.
  Lemma ceq_off : forall a b, ceq a b = true -> c_off a = c_off b /\ c_depth a = c_depth b.
  Proof. intros a b H. unfold ceq in H. rewrite !andb_true_iff, !Nat.eqb_eq in H. tauto. Qed.
  Lemma ceq_kids : forall c a b, ct c -> In a (ckids c) -> In b (ckids c) -> (ceq a b = true <-> a = b).
  Proof.
    intros c a b H Ha Hb. split; [|intros <-; apply ceq_refl]. intros E. apply ceq_off in E. apply (ckids_inj c); tauto.
  Qed.
  Lemma ceq_self_kid : forall c k, ct c -> is_leaf c = false -> In k (ckids c) -> ceq c k = false /\ ceq k c = false.
  Proof.
    intros c k H L Hk. pose proof (ckids_depth c k H L Hk). split.
    - destruct (ceq c k) eqn:E; [|reflexivity]. apply ceq_off in E. lia.
    - destruct (ceq k c) eqn:E; [|reflexivity]. apply ceq_off in E. lia.
  Qed.

  (** All the clusters are above the partition or none is. *)
  Definition same_side (a b : ctree) : Prop := above a = above b.
  Lemma kids_eq : forall nc c, ct c -> nc = above c -> kids parts nc c = ckids c.
  Proof.
    intros nc c H ->. unfold kids. destruct (is_leaf c) eqn:L; [rewrite ckids_leaf by exact L; reflexivity|].
    unfold above. destruct (Z.ltb_spec (c_rank c) 0) as [Q|Q].
    - destruct (Z.leb_spec 0 (c_rank c)) as [Q'|Q']; [lia|]. clear Q'. cbn [andb orb]. destruct H as [i cs H1 H2 H3 H4 H5 H6]. destruct cs; [discriminate|].
      apply (H5 Q).
    - cbn [andb orb]. rewrite ckids_node by exact L. reflexivity.
  Qed.
  Lemma above_kid : forall c k, ct c -> In k (ckids c) -> above k = false.
  Proof. intros c k H Hk. pose proof (ckids_rank c k H Hk). unfold above. destruct (Z.ltb_spec (c_rank k) 0); [lia|reflexivity]. Qed.
End Clusters.

Lemma nodup_app : forall A (l m : list A), NoDup l -> NoDup m -> (forall x, In x l -> In x m -> False) -> NoDup (l ++ m).
Proof.
  intros A l m HL HM H. induction HL as [|x l Hx HL IH]; [exact HM|]. cbn [app]. constructor.
  - rewrite in_app_iff. intros [Q|Q]; [contradiction|]. apply (H x); [left; reflexivity|exact Q].
  - apply IH. intros y H1 H2. apply (H y); [right; exact H1|exact H2].
Qed.

(** ** Paths *)
Section Paths.
  Variable A : Type.
  Lemma find_indexed : forall (f : A -> bool) (l : list A) n k c, nth_error l k = Some c -> f c = true ->
    (forall k' c', nth_error l k' = Some c' -> f c' = true -> k' = k) ->
    find (fun kc => f (snd kc)) (combine (seq n (length l)) l) = Some (n + k, c).
  Proof.
    intros f. induction l as [|a l IH]; intros n k c Hk Hf Hu; [destruct k; discriminate|]. cbn [length seq combine find snd].
    destruct k as [|k].
    - injection Hk as ->. rewrite Hf, Nat.add_0_r. reflexivity.
    - destruct (f a) eqn:E; [specialize (Hu 0 a eq_refl E); discriminate|]. rewrite (IH (S n) k c Hk Hf).
      + do 2 f_equal. lia.
      + intros k' c' H1 H2. specialize (Hu (S k') c' H1 H2). lia.
  Qed.
  Lemma find_indexed_none : forall (f : A -> bool) (l : list A) n, (forall c, In c l -> f c = false) ->
    find (fun kc => f (snd kc)) (combine (seq n (length l)) l) = None.
  Proof.
    intros f. induction l as [|a l IH]; intros n H; [reflexivity|]. cbn [length seq combine find snd]. rewrite (H a (or_introl eq_refl)).
    apply IH. intros c Hc. apply H. right. exact Hc.
  Qed.
  Lemma nth_replace : forall (l : list A) k x j, k < length l -> nth_error (replace_nth k x l) j = if j =? k then Some x else nth_error l j.
  Proof.
    induction l as [|a l IH]; intros k x j Hk; [cbn in Hk; lia|]. destruct k as [|k], j as [|j]; cbn [replace_nth nth_error Nat.eqb]; try reflexivity.
    apply IH. cbn in Hk. lia.
  Qed.
  Lemma length_replace : forall (l : list A) k x, length (replace_nth k x l) = length l.
  Proof. induction l as [|a l IH]; intros [|k] x; cbn [replace_nth length]; try reflexivity. rewrite IH. reflexivity. Qed.
  Lemma replace_self : forall (l : list A) k x, nth_error l k = Some x -> replace_nth k x l = l.
  Proof.
    induction l as [|a l IH]; intros [|k] x H; try discriminate; cbn [replace_nth nth_error] in *; [congruence|]. rewrite IH by exact H. reflexivity.
  Qed.
  Lemma replace_twice : forall (l : list A) k x y, replace_nth k y (replace_nth k x l) = replace_nth k y l.
  Proof. induction l as [|a l IH]; intros [|k] x y; cbn [replace_nth]; try reflexivity. rewrite IH. reflexivity. Qed.
End Paths.

Section P.
  Variable K : Coef.
  Notation C := (car K).
  Notation "0" := (c0 K).
  Notation "1" := (c1 K).
  Notation "x + y" := (cadd K x y).
  Notation "x * y" := (cmul K x y).
  Add Ring KringC : (c_ring K).
  Notation hmat := (rtree (hinfo K)).
  Notation hv := rt_val.
  Variable parts : ctree -> list ctree.
  Notation ct := (cluster_tree parts).
  Notation hrep := (hrep parts).

  (** Sum over a cluster: sums over the clusters that tile it. *)
  Lemma csum_tiles : forall l lo hi (f : nat -> C), tiles lo hi (map interval l) ->
    lsum l (fun k => csum k f) = sum (hi - lo) (fun i => f (lo + i)%nat).
  Proof.
    intros l lo hi f H. rewrite <- (tiles_sum K _ lo hi f H). rewrite lsum_map. reflexivity.
  Qed.
  Lemma csum_kids : forall c (f : nat -> C), ct c -> csum c f = lsum (ckids c) (fun k => csum k f).
  Proof.
    intros c f H. rewrite (csum_tiles _ _ _ f (ckids_tiles parts c H)). unfold csum. f_equal. lia.
  Qed.
  Lemma csum_ext : forall c (f g : nat -> C), (forall k, in_iv k (interval c) = true -> f k = g k) -> csum c f = csum c g.
  Proof. intros c f g H. unfold csum. apply sum_ext. intros k Hk. apply H. apply in_ivb. lia. Qed.

  Lemma hrep_ct : forall M (A : hmat), hrep M A -> ct (h_t (hv A)) /\ ct (h_s (hv A)).
  Proof. intros M A H. destruct H; auto. Qed.
  Lemma hrep_sym : forall M (A : hmat), hrep M A -> h_sym (hv A) = SyN /\ no_sym_leaves (h_lsym (hv A)) = true.
  Proof. intros M A H. destruct H; auto. Qed.
  Lemma hrep_ext : forall M M' (A : hmat), hrep M A ->
    (forall i j, in_iv i (interval (h_t (hv A))) = true -> in_iv j (interval (h_s (hv A))) = true -> M i j = M' i j) -> hrep M' A.
  Proof.
    intros M M' A H. induction H as [i H1 H2 H3 H4 H5 H6|i cs H1 H2 H3 H4 H5 H6 H7 H8 IH]; intros E; cbn [rt_val] in E.
    - apply hrep_leaf; try assumption. intros a b Ha Hb. rewrite H6 by assumption. apply E; apply in_ivb; lia.
    - apply hrep_node; try assumption. intros c Hc. apply IH; [exact Hc|]. intros x y Hx Hy.
      assert (Q : In (block_of c) (list_prod (ckids (h_t i)) (ckids (h_s i)))) by (eapply Permutation_in; [exact H7|apply in_map, Hc]).
      unfold block_of in Q. apply in_prod_iff in Q. destruct Q as [Q1 Q2].
      pose proof (ckids_in parts _ _ H1 Q1). pose proof (ckids_in parts _ _ H2 Q2). apply in_ivb in Hx, Hy. apply E; apply in_ivb; lia.
  Qed.
  Lemma hrep_leaf_inv : forall M (A : hmat), hrep M A -> h_data (hv A) <> DNone ->
    rt_children A = [] /\ leaf_ok (hv A) /\
    forall a b, (a < c_size (h_t (hv A)))%nat -> (b < c_size (h_s (hv A)))%nat -> stored (hv A) a b = M (c_off (h_t (hv A)) + a)%nat (c_off (h_s (hv A)) + b)%nat.
  Proof. intros M A H N. destruct H; [auto|]. cbn [rt_val] in N. congruence. Qed.
  Lemma hrep_node_inv : forall M (A : hmat), hrep M A -> h_data (hv A) = DNone ->
    is_leaf (h_t (hv A)) && is_leaf (h_s (hv A)) = false /\
    Permutation (map block_of (rt_children A)) (list_prod (ckids (h_t (hv A))) (ckids (h_s (hv A)))) /\
    forall c, In c (rt_children A) -> hrep M c.
  Proof.
    intros M A H N. destruct H; [|auto]. cbn [rt_val] in N. unfold leaf_ok in H3. rewrite N in H3. contradiction.
  Qed.
  Lemma prod_nodup : forall (a b : ctree), ct a -> ct b -> NoDup (list_prod (ckids a) (ckids b)).
  Proof.
    intros a b Ha Hb. pose proof (ckids_nodup parts a Ha) as NA. pose proof (ckids_nodup parts b Hb) as NB. revert NA NB. generalize (ckids a) (ckids b). clear.
    intros l m NA NB. induction NA as [|x l Hx NA IH]; [constructor|]. cbn [list_prod]. apply nodup_app.
    - apply FinFun.Injective_map_NoDup; [|exact NB]. intros u v E. congruence.
    - exact IH.
    - intros [u v] H1 H2. apply in_map_iff in H1. destruct H1 as (y & E & _). injection E as <- <-. apply in_prod_iff in H2. tauto.
  Qed.

  (** ** Leaves *)
  Fixpoint hl (A : hmat) : list (hinfo K) := match A with RNode i [] => [i] | RNode i cs => concat (map hl cs) end.
  Lemma hl_node : forall i cs, cs <> [] -> hl (RNode i cs) = concat (map hl cs).
  Proof. intros i [|c cs] H; [congruence|reflexivity]. Qed.

  Lemma pre_nonzero : forall (A : hmat), (1 <= length (preorder A))%nat.
  Proof. intros [i cs]. cbn. lia. Qed.

  Definition nosym (A : hmat) : Prop := forall u, In u (preorder A) -> h_sym (hv u) = SyN.
  Lemma nosym_child : forall i cs c, nosym (RNode i cs) -> In c cs -> nosym c.
  Proof. intros i cs c H Hc u Hu. apply H. cbn [preorder]. right. apply in_concat. exists (preorder c). split; [apply in_map, Hc|exact Hu]. Qed.
  Lemma hleaves_run_nosym : forall f (stack : list (hmat * bool)) lv, (forall p, In p stack -> snd p = false /\ nosym (fst p)) ->
    (length (concat (map (fun p => preorder (fst p)) stack)) <= f)%nat ->
    exists L, hleaves_run K f stack lv [] = Some (L, []) /\ Permutation L (lv ++ concat (map (fun p => hl (fst p)) stack)).
  Proof.
    induction f as [|f IH]; intros stack lv Hs Hf.
    - destruct stack as [|[b anc] st]; [|cbn [map concat fst] in Hf; rewrite app_length in Hf; pose proof (pre_nonzero b); lia].
      exists lv. cbn. rewrite app_nil_r. split; reflexivity.
    - destruct stack as [|[b anc] st]; [exists lv; cbn; rewrite app_nil_r; split; reflexivity|].
      cbn [hleaves_run]. destruct (Hs (b, anc) (or_introl eq_refl)) as [Ea Hb]. cbn [fst snd] in Ea, Hb. subst anc.
      destruct b as [i cs]. cbn [rt_val rt_children]. rewrite andb_false_r. cbn [andb].
      assert (h_sym i = SyN) as ->. { apply (Hb (RNode i cs)). cbn. left. reflexivity. }
      cbn [sym_is_N negb orb].
      destruct (IH (rev (map (fun c => (c, false)) cs) ++ st) (if match cs with [] => true | _ => false end then lv ++ [i] else lv)) as (L & E1 & E2).
      + intros p Hp. apply in_app_iff in Hp. destruct Hp as [Hp|Hp]; [|apply Hs; right; exact Hp].
        apply in_rev in Hp. apply in_map_iff in Hp. destruct Hp as (c & <- & Hc). split; [reflexivity|]. exact (nosym_child i cs c Hb Hc).
      + rewrite map_app, concat_app, app_length. cbn [map concat fst preorder] in Hf. rewrite app_length in Hf. cbn [length] in Hf.
        assert (Q : length (concat (map (fun p : hmat * bool => preorder (fst p)) (rev (map (fun c => (c, false)) cs)))) = length (concat (map preorder cs))).
        { apply Permutation_length. rewrite map_rev, map_map. cbn [fst]. clear. change (map (fun x => preorder x) cs) with (map (@preorder (hinfo K)) cs). generalize (map (@preorder (hinfo K)) cs).
          induction l as [|a l IH]; [reflexivity|]. cbn [rev concat]. rewrite concat_app, IH. cbn [concat]. rewrite app_nil_r. apply Permutation_app_comm. }
        rewrite Q. lia.
      + exists L. split; [exact E1|]. rewrite E2. cbn [map concat fst]. rewrite map_app, concat_app.
        assert (Q : Permutation (concat (map (fun p : hmat * bool => hl (fst p)) (rev (map (fun c => (c, false)) cs)))) (concat (map hl cs))).
        { rewrite map_rev, map_map. cbn [fst]. clear. change (map (fun x => hl x) cs) with (map hl cs). generalize (map hl cs).
          induction l as [|a l IH]; [reflexivity|]. cbn [rev concat]. rewrite concat_app, IH. cbn [concat]. rewrite app_nil_r. apply Permutation_app_comm. }
        destruct cs as [|c cs].
        * cbn [rev map concat app hl]. rewrite <- app_assoc. reflexivity.
        * rewrite hl_node by discriminate. apply Permutation_app_head. apply Permutation_app_tail. exact Q.
  Qed.

  Lemma hrep_nosym : forall M A, hrep M A -> nosym A.
  Proof.
    intros M A H. induction H as [i H1 H2 H3 H4 H5 H6|i cs H1 H2 H3 H4 H5 H6 H7 H8 IH]; intros u Hu; cbn [preorder] in Hu.
    - destruct Hu as [<-|[]]. exact H3.
    - destruct Hu as [<-|Hu]; [exact H3|]. apply in_concat in Hu. destruct Hu as (l & Hl & Hu). apply in_map_iff in Hl. destruct Hl as (c & <- & Hc).
      exact (IH c Hc u Hu).
  Qed.

  Lemma count_concat : forall X (f : X -> bool) ls, count f (concat ls) = sumn (map (count f) ls).
  Proof. intros X f. induction ls as [|l ls IH]; [reflexivity|]. cbn [concat map sumn fold_right]. fold (sumn (map (count f) ls)). rewrite count_app, IH. reflexivity. Qed.
  Lemma sumn_perm : forall a b, Permutation a b -> sumn a = sumn b.
  Proof. intros a b H. unfold sumn. induction H; cbn [fold_right] in *; try lia. Qed.
  Lemma sum_prod_in : forall i j l m lo hi lo' hi', tiles lo hi (map interval l) -> tiles lo' hi' (map interval m) ->
    sumn (map (fun p : ctree * ctree => b2n (in_iv i (interval (fst p)) && in_iv j (interval (snd p)))) (list_prod l m)) =
    b2n (in_iv i (lo, hi - lo) && in_iv j (lo', hi' - lo'))%nat.
  Proof.
    intros i j l m lo hi lo' hi' Hl Hm. rewrite b2n_and. rewrite <- (sum_in lo hi l i Hl). clear Hl. induction l as [|a l IH]; [reflexivity|].
    cbn [list_prod]. rewrite map_app, sumn_app, IH. cbn [map sumn fold_right]. fold (sumn (map (fun k => b2n (in_iv i (interval k))) l)).
    rewrite map_map. cbn [fst snd]. rewrite <- (sum_in lo' hi' m j Hm).
    rewrite (BlockProofs.sum_ext _ _ (fun x => b2n (in_iv j (interval x)) * b2n (in_iv i (interval a)))%nat) by (intros; rewrite b2n_and; lia).
    rewrite sum_mul. lia.
  Qed.
  Lemma hrep_count : forall M A, hrep M A -> forall i j,
    count (hcovers i j) (hl A) = b2n (in_iv i (interval (h_t (hv A))) && in_iv j (interval (h_s (hv A)))).
  Proof.
    intros M A H. induction H as [h H1 H2 H3 H4 H5 H6|h cs H1 H2 H3 H4 H5 H6 H7 H8 IH]; intros i j; cbn [rt_val].
    - cbn [hl]. unfold count, hcovers. cbn [filter]. destruct (_ && _); reflexivity.
    - assert (cs <> []) as Hne. { intros ->. apply Permutation_nil in H7. destruct (ckids (h_t h)) eqn:E1; [destruct (ckids_nonempty _ E1)|].
        destruct (ckids (h_s h)) eqn:E2; [destruct (ckids_nonempty _ E2)|]. discriminate. }
      rewrite hl_node by exact Hne. rewrite count_concat, map_map.
      rewrite (BlockProofs.sum_ext _ _ (fun c => b2n (in_iv i (interval (fst (block_of c))) && in_iv j (interval (snd (block_of c)))))).
      2:{ intros c Hc. apply IH, Hc. }
      rewrite <- (map_map block_of (fun p : ctree * ctree => b2n (in_iv i (interval (fst p)) && in_iv j (interval (snd p))))).
      rewrite (sumn_perm _ _ (Permutation_map _ H7)).
      rewrite (sum_prod_in _ _ _ _ _ _ _ _ (ckids_tiles parts _ H1) (ckids_tiles parts _ H2)).
      f_equal. unfold interval, c_off, c_size. f_equal; f_equal; f_equal; lia.
  Qed.
  Lemma hrep_hl : forall M A, hrep M A -> forall h, In h (hl A) ->
    contains (h_t (hv A)) (h_t h) = true /\ contains (h_s (hv A)) (h_s h) = true /\ h_sym h = SyN /\ leaf_ok h /\ ct (h_t h) /\ ct (h_s h) /\
    forall a b, (a < c_size (h_t h))%nat -> (b < c_size (h_s h))%nat -> stored h a b = M (c_off (h_t h) + a)%nat (c_off (h_s h) + b)%nat.
  Proof.
    intros M A H. induction H as [i H1 H2 H3 H4 H5 H6|i cs H1 H2 H3 H4 H5 H6 H7 H8 IH]; intros h Hh; cbn [rt_val].
    - destruct Hh as [<-|[]]. rewrite !contains_iff. repeat (split; [first [assumption|lia]|]). exact H6.
    - destruct cs as [|c cs].
      + apply Permutation_nil in H7. destruct (ckids (h_t i)) eqn:E1; [destruct (ckids_nonempty _ E1)|].
        destruct (ckids (h_s i)) eqn:E2; [destruct (ckids_nonempty _ E2)|]. discriminate.
      + rewrite hl_node in Hh by discriminate. apply in_concat in Hh. destruct Hh as (l & Hl & Hh). apply in_map_iff in Hl. destruct Hl as (d & <- & Hd).
        destruct (IH d Hd h Hh) as (I1 & I2 & I3 & I4 & I5).
        assert (Q : In (block_of d) (list_prod (ckids (h_t i)) (ckids (h_s i)))) by (eapply Permutation_in; [exact H7|apply in_map, Hd]).
        unfold block_of in Q. apply in_prod_iff in Q. destruct Q as [Q1 Q2].
        pose proof (ckids_in parts _ _ H1 Q1). pose proof (ckids_in parts _ _ H2 Q2). apply contains_iff in I1, I2. unfold block_of in *. cbn [fst snd] in *.
        split; [apply contains_iff; lia|]. split; [apply contains_iff; lia|]. split; [exact I3|]. split; [exact I4|exact I5].
  Qed.

  Lemma leaf_entry_stored : forall h i j, h_sym h = SyN -> leaf_entry (K:=K) h i j = stored h i j.
  Proof. intros h i j E. unfold leaf_entry, stored. rewrite E. reflexivity. Qed.

  Theorem hrep_holds : forall M A, hrep M A ->
    exists L, hleaves K A = Some (L, []) /\ holds_matrix (hv A) L [] SyN M.
  Proof.
    intros M A H. destruct (hleaves_run_nosym (length (preorder A)) [(A, negb (sym_is_N (h_sym (hv A))))] []) as (L & E1 & E2).
    - intros p [<-|[]]. destruct (hrep_sym M A H) as [-> _]. split; [reflexivity|]. exact (hrep_nosym M A H).
    - cbn. rewrite app_nil_r. lia.
    - exists L. split; [exact E1|]. cbn [app map concat fst] in E2. rewrite app_nil_r in E2.
      assert (HL : forall h, In h L -> In h (hl A)) by (intros h Hh; eapply Permutation_in; eassumption).
      constructor.
      + constructor.
        * intros h Hh. destruct (hrep_hl M A H h (HL h Hh)) as (_ & _ & E & W & T1 & T2 & _). split; [|left; exact E].
          unfold wf_leaf. split; [exact (ct_size parts _ T1)|]. split; [exact (ct_size parts _ T2)|]. unfold leaf_ok in W. rewrite E.
          destruct (h_data h); [contradiction| |tauto]. split; [exact W|]. split; [congruence|discriminate].
        * intros h Hh. destruct (hrep_hl M A H h (HL h Hh)) as (E1' & E2' & _). split; assumption.
        * intros h [].
        * congruence.
        * intros i j Hi Hj. rewrite (HMatProducts.count_perm _ _ _ E2), (hrep_count M A H). rewrite Hi, Hj. reflexivity.
      + intros h Hh i j Hi Hj. destruct (hrep_hl M A H h (HL h Hh)) as (_ & _ & E & _ & _ & _ & E'). rewrite leaf_entry_stored by exact E. apply E'; assumption.
      + intros h [].
  Qed.

  (** ** Children *)
  Lemma not_self : forall t s o i, ct t -> ct s -> is_leaf t && is_leaf s = false -> In o (ckids t) -> In i (ckids s) ->
    ceq t o && ceq s i = false /\ ceq o t && ceq i s = false.
  Proof.
    intros t s o i Ht Hs L Ho Hi. apply andb_false_iff in L. destruct L as [L|L].
    - destruct (ceq_self_kid parts t o Ht L Ho) as [-> ->]. split; reflexivity.
    - destruct (ceq_self_kid parts s i Hs L Hi) as [-> ->]. rewrite !andb_false_r. split; reflexivity.
  Qed.
  Lemma kid_test : forall t s o i o' i', ct t -> ct s -> In (o, i) (list_prod (ckids t) (ckids s)) -> In (o', i') (list_prod (ckids t) (ckids s)) ->
    (ceq o' o && ceq i' i = true <-> (o', i') = (o, i)).
  Proof.
    intros t s o i o' i' Ht Hs H1 H2. apply in_prod_iff in H1, H2. destruct H1 as [H1 H3]. destruct H2 as [H2 H4].
    rewrite andb_true_iff, (ceq_kids parts t o' o Ht H2 H1), (ceq_kids parts s i' i Hs H4 H3). split; [intros [-> ->]; reflexivity|intros E; injection E; auto].
  Qed.
  Lemma unique_index : forall (cs : list hmat) k k' c c', NoDup (map block_of cs) -> nth_error cs k = Some c -> nth_error cs k' = Some c' ->
    block_of c = block_of c' -> k = k'.
  Proof.
    intros cs k k' c c' N H1 H2 E. pose proof (map_nth_error block_of _ _ H1) as Q1. pose proof (map_nth_error block_of _ _ H2) as Q2.
    rewrite E in Q1. rewrite <- Q2 in Q1. apply (proj1 (NoDup_nth_error _) N); [|exact Q1]. apply nth_error_Some. congruence.
  Qed.

  Section Find.
    Variables (i : hinfo K) (cs : list hmat).
    Hypothesis Ht : ct (h_t i).
    Hypothesis Hs : ct (h_s i).
    Hypothesis HL : is_leaf (h_t i) && is_leaf (h_s i) = false.
    Hypothesis HN : NoDup (map block_of cs).
    Hypothesis HI : incl (map block_of cs) (list_prod (ckids (h_t i)) (ckids (h_s i))).
    Variables (o j : ctree).
    Hypothesis Ho : In o (ckids (h_t i)).
    Hypothesis Hj : In j (ckids (h_s i)).

    Lemma child_found : forall k c, nth_error cs k = Some c -> block_of c = (o, j) -> child_path K (RNode i cs) o j = Some [k].
    Proof.
      intros k c Hk Hb. unfold child_path. cbn [rt_val rt_children]. destruct (not_self _ _ o j Ht Hs HL Ho Hj) as [-> _].
      unfold indexed. rewrite (find_indexed _ (fun c => ceq (h_t (hv c)) o && ceq (h_s (hv c)) j) cs 0 k c Hk).
      - reflexivity.
      - injection Hb as -> ->. rewrite !ceq_refl. reflexivity.
      - intros k' c' Hk' E. assert (block_of c' = (o, j)) as E'.
        { apply (kid_test (h_t i) (h_s i)); [exact Ht|exact Hs|apply in_prod; assumption| |exact E]. apply HI. apply (in_map block_of). eapply nth_error_In, Hk'. }
        apply (unique_index cs k' k c' c HN Hk' Hk). congruence.
    Qed.
    Lemma child_missing : ~ In (o, j) (map block_of cs) -> child_path K (RNode i cs) o j = None.
    Proof.
      intros Hn. unfold child_path. cbn [rt_val rt_children]. destruct (not_self _ _ o j Ht Hs HL Ho Hj) as [-> _].
      unfold indexed. rewrite (find_indexed_none _ (fun c => ceq (h_t (hv c)) o && ceq (h_s (hv c)) j)); [reflexivity|].
      intros c Hc. destruct (ceq (h_t (hv c)) o && ceq (h_s (hv c)) j) eqn:E; [|reflexivity]. exfalso. apply Hn.
      assert (Q : In (block_of c) (map block_of cs)) by (apply in_map, Hc).
      replace (o, j) with (block_of c); [exact Q|]. apply (kid_test (h_t i) (h_s i)); [exact Ht|exact Hs|apply in_prod; assumption|apply HI, Q|exact E].
    Qed.
    Lemma bfs_find : forall pre f q p (h : hmat) post, q = pre ++ (p, h) :: post -> (length pre < f)%nat ->
      (forall x, In x pre -> ceq o (h_t (hv (snd x))) && ceq j (h_s (hv (snd x))) = false) ->
      ceq o (h_t (hv h)) && ceq j (h_s (hv h)) = true -> bfs K f q o j = Some p.
    Proof.
      clear. induction pre as [|[p0 h0] pre IH]; intros f q p h post -> Hf Hpre Hh.
      - destruct f as [|f]; [cbn in Hf; lia|]. cbn [app bfs]. rewrite Hh. reflexivity.
      - destruct f as [|f]; [cbn in Hf; lia|]. cbn [app bfs]. pose proof (Hpre (p0, h0) (or_introl eq_refl)) as Q0. cbn [snd] in Q0. rewrite Q0.
        eapply (IH f _ p h). { rewrite <- app_assoc. cbn [app]. reflexivity. }
        + cbn in Hf. lia.
        + intros x Hx. apply Hpre. right. exact Hx.
        + exact Hh.
    Qed.
    Lemma pre_length : (S (length cs) <= length (preorder (RNode i cs)))%nat.
    Proof.
      clear. cbn [preorder length]. apply le_n_S. induction cs as [|c l IH]; [reflexivity|]. cbn [map concat length]. rewrite app_length. pose proof (pre_nonzero c). lia.
    Qed.
    Lemma sub_found : forall k c, nth_error cs k = Some c -> block_of c = (o, j) -> sub_path K (RNode i cs) o j = Some [k] /\ sub K (RNode i cs) o j = Some c.
    Proof.
      intros k c Hk Hb. assert (E : sub_path K (RNode i cs) o j = Some [k]).
      { unfold sub_path. pose proof pre_length as HP. destruct (length (preorder (RNode i cs))) as [|f]; [lia|]. cbn [bfs rt_val].
        destruct (not_self _ _ o j Ht Hs HL Ho Hj) as [_ ->]. cbn [app rt_children].
        destruct (nth_error_split _ _ Hk) as (l1 & l2 & El & Elen).
        apply (bfs_find (map (fun kc => ([fst kc], snd kc)) (combine (seq 0 k) l1)) f _ [k] c (map (fun kc => ([fst kc], snd kc)) (combine (seq (S k) (length l2)) l2))).
        - rewrite El. unfold indexed. rewrite app_length. cbn [length]. rewrite Elen. rewrite seq_app.
          assert (CA : forall (a b : list nat) (c d : list hmat), length a = length c -> combine (a ++ b) (c ++ d) = combine a c ++ combine b d).
          { clear. induction a as [|x a IH]; intros b [|y c] d H; try discriminate; [reflexivity|]. cbn [app combine]. rewrite IH; [reflexivity|]. cbn in H. lia. }
          rewrite CA by (rewrite seq_length; lia). cbn [seq combine Nat.add]. rewrite map_app. reflexivity.
        - rewrite map_length, combine_length, seq_length. assert (length cs = length l1 + S (length l2))%nat by (rewrite El, app_length; reflexivity). lia.
        - intros x Hx. apply in_map_iff in Hx. destruct Hx as ([n d] & <- & Hd). cbn [snd]. apply in_combine_r in Hd.
          destruct (ceq o (h_t (hv d)) && ceq j (h_s (hv d))) eqn:E; [|reflexivity]. exfalso.
          assert (Hin : In d cs) by (rewrite El; apply in_app_iff; left; exact Hd).
          assert ((o, j) = block_of d) as Eb.
          { apply (kid_test (h_t i) (h_s i)); [exact Ht|exact Hs|exact (HI _ (in_map block_of _ _ Hin))|apply in_prod; assumption|exact E]. }
          rewrite El, map_app in HN. cbn [map] in HN. apply NoDup_remove_2 in HN. apply HN. rewrite <- map_app. rewrite Hb, Eb. apply in_map. apply in_app_iff. left. exact Hd.
        - injection Hb as -> ->. rewrite !ceq_refl. reflexivity. }
      split; [exact E|]. unfold sub. rewrite E. cbn [node_at rt_children]. rewrite Hk. reflexivity.
    Qed.
  End Find.

  Lemma perm_child : forall (cs : list hmat) l p, Permutation (map block_of cs) l -> In p l -> exists k c, nth_error cs k = Some c /\ block_of c = p.
  Proof.
    intros cs l p HP Hp. apply Permutation_sym in HP. pose proof (Permutation_in _ HP Hp) as Q. apply in_map_iff in Q. destruct Q as (c & E & Hc).
    apply In_nth_error in Hc. destruct Hc as [k Hk]. exists k, c. split; assumption.
  Qed.
  (** A full node has the child of each pair; both searches find it. *)
  Lemma hrep_child : forall M A o j, hrep M A -> h_data (hv A) = DNone -> In o (ckids (h_t (hv A))) -> In j (ckids (h_s (hv A))) ->
    exists k c, nth_error (rt_children A) k = Some c /\ block_of c = (o, j) /\ hrep M c /\
      sub_path K A o j = Some [k] /\ sub K A o j = Some c /\ child_or_this K A o j = Some c.
  Proof.
    intros M A o j H N Ho Hj. destruct (hrep_ct M A H) as [Ht Hs]. destruct (hrep_node_inv M A H N) as (L & HP & HC).
    destruct (perm_child _ _ (o, j) HP) as (k & c & Hk & Hb); [apply in_prod; assumption|]. exists k, c. split; [exact Hk|]. split; [exact Hb|].
    split; [apply HC; eapply nth_error_In, Hk|]. destruct A as [i cs]. cbn [rt_val rt_children] in *.
    assert (HN : NoDup (map block_of cs)) by (eapply Permutation_NoDup; [apply Permutation_sym, HP|apply prod_nodup; assumption]).
    assert (HI : incl (map block_of cs) (list_prod (ckids (h_t i)) (ckids (h_s i)))) by (intros p Hp; eapply Permutation_in; eassumption).
    destruct (sub_found i cs Ht Hs L HN HI o j Ho Hj k c Hk Hb) as [E1 E2]. split; [exact E1|]. split; [exact E2|].
    unfold child_or_this. rewrite (child_found i cs Ht Hs L HN HI o j Ho Hj k c Hk Hb). cbn [node_at rt_children]. rewrite Hk. reflexivity.
  Qed.
  Definition height := fix go (A : hmat) : nat := match A with RNode _ cs => S (fold_right Nat.max 0%nat (map go cs)) end.
  Lemma height_child : forall i cs c, In c cs -> (height c < height (RNode i cs))%nat.
  Proof.
    intros i cs c Hc. cbn [height]. apply le_n_S. induction cs as [|x cs IH]; [contradiction|]. cbn [map fold_right].
    destruct Hc as [->|Hc]; [lia|]. specialize (IH Hc). lia.
  Qed.
End P.
