(** * Saving and reading back a cluster tree: proofs. *)

From Coq Require Import List Arith ZArith Bool Ascii Lia.
From Verif Require Import ClusterModel ClusterProofs ClusterPartition ClusterMore IOModel IOSpec IOProofs.
Import ListNotations.

(** Nodes at relative depth [j], in preorder. *)
Definition levf {A} (j : nat) (ts : list (rtree A)) : list (rtree A) := concat (map (lev j) ts).

Lemma levf_0 : forall A (ts : list (rtree A)), levf 0 ts = ts.
Proof. intros A ts. unfold levf. induction ts as [|t ts IH]; [reflexivity|]. simpl in *. f_equal. exact IH. Qed.

Lemma levf_S : forall A j (ts : list (rtree A)), levf (S j) ts = concat (map (fun t => levf j (rt_children t)) ts).
Proof. reflexivity. Qed.

Lemma lev_S_last : forall A j (t : rtree A), lev (S j) t = concat (map rt_children (lev j t)).
Proof.
  intros A j. induction j as [|j IH]; intros t.
  - cbn [lev map concat]. rewrite app_nil_r. apply levf_0.
  - change (lev (S (S j)) t) with (concat (map (lev (S j)) (rt_children t))).
    rewrite (map_ext _ _ IH). change (lev (S j) t) with (concat (map (lev j) (rt_children t))).
    rewrite concat_map, map_map.
    induction (rt_children t) as [|c cs IHc]; [reflexivity|].
    cbn [map concat]. rewrite IHc. rewrite concat_app. reflexivity.
Qed.

Lemma lev_empty_up : forall A (t : rtree A) j k, lev j t = [] -> j <= k -> lev k t = [].
Proof.
  intros A t j k H Hk. induction Hk as [|k Hk IH]; [exact H|]. rewrite lev_S_last, IH. reflexivity.
Qed.

(** Map over a tree. *)
Section IO.
  Variable R : Type.
  Variable fmt : R -> str.
  Variable prs : str -> R.
  Hypothesis Hfmt : forall r, clean (fmt r).
  Variables (dp dim : nat).

  Notation itree := (itree R).
  Notation node_text := (node_text R fmt dp).

  (** The node as it is read back: the coordinates went through the text. *)
  Notation regeo := (regeo fmt prs).

  (** *** One node *)

  Lemma node_fields_clean : forall d t s, In s (node_fields R fmt dp d t) -> clean s.
  Proof.
    intros d t s H. unfold node_fields in H. apply in_app_or in H. destruct H as [H|H].
    - simpl in H. repeat (destruct H as [<-|H]; [first [apply print_nat_clean|apply print_Z_clean|apply Hfmt]|]). contradiction.
    - apply in_map_iff in H. destruct H as (r & <- & _). apply Hfmt.
  Qed.

  Lemma node_text_sep : forall d t, node_text d t = sep_by "|"%char (node_fields R fmt dp d t).
  Proof. intros d t. unfold IOModel.node_text, node_fields. cbn [app]. apply join_sep, print_nat_nonempty. Qed.

  Lemma node_text_split : forall d t, split (node_text d t) ["|"%char] = Some (node_fields R fmt dp d t).
  Proof.
    intros d t. rewrite node_text_sep. unfold node_fields at 1 2. cbn [app]. apply split_sep.
    intros s Hs. apply (node_fields_clean d t s). unfold node_fields. cbn [app]. exact Hs.
  Qed.

  Lemma sep_by_notin : forall c c' l, c <> c' -> (forall s, In s l -> ~ In c s) -> ~ In c (sep_by c' l).
  Proof.
    intros c c' l Hc. induction l as [|s l IH]; intros H Hin; [contradiction|].
    destruct l as [|s' l].
    - apply (H s (or_introl eq_refl)). exact Hin.
    - rewrite sep_by_cons in Hin. apply in_app_or in Hin. destruct Hin as [Hin|[E|Hin]].
      + apply (H s (or_introl eq_refl)). exact Hin.
      + congruence.
      + apply IH in Hin; [exact Hin|]. intros s0 Hs0. apply H. right; exact Hs0.
  Qed.

  Lemma node_text_no_comma : forall d t, ~ In ","%char (node_text d t) /\ ~ In newline (node_text d t).
  Proof.
    intros d t. rewrite node_text_sep. split; (apply sep_by_notin; [discriminate|]);
      intros s Hs; apply node_fields_clean in Hs; apply Hs.
  Qed.

  Lemma parse_node_text : forall d t, length (in_center R (rt_val t)) = dim ->
    parse_node R prs dim (node_text d t) = Some (length (rt_children t), regeo (rt_val t), d =? dp).
  Proof.
    intros d t Hdim. unfold parse_node. rewrite node_text_split. unfold node_fields.
    cbn [app nth_error length skipn]. rewrite map_length, Hdim.
    rewrite !stoi_nat_print, stoi_print_Z.
    change (S (S (S (S (S (S (S dim))))))) with (7 + dim). rewrite Nat.leb_refl.
    rewrite firstn_all2 by (rewrite map_length; lia). rewrite map_map. unfold regeo.
    destruct (d =? dp); reflexivity.
  Qed.

  (** *** The file *)

  Definition sel (e : nat) (l : list (nat * itree)) : list itree :=
    map snd (filter (fun p => fst p =? e) l).

  Lemma sel_app : forall e l l', sel e (l ++ l') = sel e l ++ sel e l'.
  Proof. intros. unfold sel. rewrite filter_app, map_app. reflexivity. Qed.

  Lemma sel_below : forall t d e, e < d -> sel e (preorder_depth R d t) = [].
  Proof.
    intros t. induction t as [a ts IH] using rtree_ind'. intros d e H.
    cbn [preorder_depth]. unfold sel. cbn [filter fst]. destruct (Nat.eqb_spec d e); [lia|].
    fold (sel e (concat (map (preorder_depth R (S d)) ts))).
    induction ts as [|t ts IHl]; [reflexivity|]. cbn [map concat]. rewrite sel_app.
    rewrite IH by (try (left; reflexivity); lia). apply IHl. intros x Hx. apply IH. right; exact Hx.
  Qed.

  Lemma sel_lev : forall t d j, sel (d + j) (preorder_depth R d t) = lev j t.
  Proof.
    intros t. induction t as [a ts IH] using rtree_ind'. intros d j.
    cbn [preorder_depth]. unfold sel. cbn [filter fst].
    destruct (Nat.eqb_spec d (d + j)) as [E|E].
    - assert (j = 0) by lia. subst j. rewrite Nat.add_0_r. cbn [map snd lev]. f_equal.
      fold (sel d (concat (map (preorder_depth R (S d)) ts))).
      clear. induction ts as [|t ts IHl]; [reflexivity|]. cbn [map concat]. rewrite sel_app, IHl.
      rewrite sel_below by lia. reflexivity.
    - destruct j as [|j]; [lia|]. fold (sel (d + S j) (concat (map (preorder_depth R (S d)) ts))).
      cbn [lev rt_children]. clear E.
      induction ts as [|t ts IHl]; [reflexivity|]. cbn [map concat]. rewrite sel_app. f_equal.
      + rewrite <- Nat.add_succ_comm. apply IH. left; reflexivity.
      + apply IHl. intros x Hx. apply IH. right; exact Hx.
  Qed.

  Lemma push_all_spec : forall l outs, (forall p, In p l -> fst p < length outs) ->
    exists outs', push_all R fmt dp outs l = Some outs' /\ length outs' = length outs /\
      forall e, e < length outs -> nth e outs' [] = nth e outs [] ++ map (node_text e) (sel e l).
  Proof.
    induction l as [|[d t] l IH]; intros outs H.
    - exists outs. simpl. repeat split; auto. intros e He. rewrite app_nil_r. reflexivity.
    - cbn [push_all]. unfold push_level.
      assert (Hd : d < length outs) by (apply (H (d, t)); left; reflexivity).
      destruct (nth_error outs d) as [x|] eqn:Ex; [|apply nth_error_None in Ex; lia].
      destruct (IH (list_set outs d (x ++ [node_text d t]))) as (o & Ho & HL & HN).
      { intros p Hp. rewrite list_set_length. apply H. right; exact Hp. }
      rewrite list_set_length in *.
      exists o. split; [exact Ho|]. split; [exact HL|]. intros e He.
      rewrite HN by exact He. rewrite list_set_nth by exact Hd.
      unfold sel. cbn [filter fst]. rewrite Nat.eqb_sym.
      destruct (Nat.eqb_spec d e) as [->|Hne].
      + cbn [map snd]. apply nth_error_nth with (d := []) in Ex. rewrite Ex, <- app_assoc. reflexivity.
      + reflexivity.
  Qed.

  Lemma preorder_depth_bound : forall t d p, In p (preorder_depth R d t) -> d <= fst p /\ In (snd p) (lev (fst p - d) t).
  Proof.
    intros t d p Hp. assert (Hle : d <= fst p).
    { destruct (Nat.le_gt_cases d (fst p)) as [Q|Q]; [exact Q|]. exfalso.
      pose proof (sel_below t d (fst p) Q) as E.
      assert (Hin : In (snd p) (sel (fst p) (preorder_depth R d t))).
      { unfold sel. apply in_map, filter_In. split; [exact Hp|apply Nat.eqb_refl]. }
      rewrite E in Hin. contradiction. }
    split; [exact Hle|]. rewrite <- (sel_lev t d (fst p - d)). replace (d + (fst p - d)) with (fst p) by lia.
    unfold sel. apply in_map, filter_In. split; [exact Hp|apply Nat.eqb_refl].
  Qed.

  Lemma commas_sep : forall l, commas l = sep_by ","%char l.
  Proof. induction l as [|s [|s' l] IH]; try reflexivity. cbn [commas]. cbn [commas] in IH. rewrite IH. reflexivity. Qed.

  Lemma getlines_app : forall l rest cur, ~ In newline l -> getlines (l ++ newline :: rest) cur = (cur ++ l) :: getlines rest [].
  Proof.
    induction l as [|c l IH]; intros rest cur H.
    - cbn [app getlines]. rewrite Ascii.eqb_refl, app_nil_r. reflexivity.
    - cbn [app getlines]. destruct (Ascii.eqb_spec c newline) as [->|Hc].
      + exfalso. apply H. left; reflexivity.
      + rewrite IH by (intros Q; apply H; right; exact Q). rewrite <- app_assoc. reflexivity.
  Qed.

  Lemma getlines_lines : forall ls, (forall l, In l ls -> ~ In newline l) -> getlines (lines_text ls) [] = ls.
  Proof.
    induction ls as [|l ls IH]; intros H; [reflexivity|]. unfold lines_text. cbn [map concat].
    rewrite <- app_assoc. cbn [app]. rewrite getlines_app by (apply H; left; reflexivity). cbn [app]. f_equal.
    apply IH. intros x Hx. apply H. right; exact Hx.
  Qed.

  (** An empty level is read back as one empty record. *)
  Definition fill_empty (l : list str) : list str := match l with [] => [[]] | _ => l end.

  Lemma split_lines_ok : forall outs, (forall l s, In l outs -> In s l -> ~ In ","%char s) ->
    split_lines (map commas outs) = Some (map fill_empty outs).
  Proof.
    induction outs as [|l outs IH]; intros H; [reflexivity|]. cbn [map split_lines].
    rewrite IH by (intros x s Hx; apply H; right; exact Hx).
    rewrite commas_sep. destruct l as [|s l].
    - reflexivity.
    - rewrite split_sep; [reflexivity|]. intros t Ht. apply (H (s :: l)); [left; reflexivity|exact Ht].
  Qed.

  (** *** Reading *)

  Variable levels : list (list str).

  Definition slot (co : list nat) (e : nat) (ns : list itree) : Prop :=
    ns = [] \/ exists pre post, nth_error levels e = Some (pre ++ map (node_text e) ns ++ post) /\
                               nth_error co e = Some (length pre).

  Definition reg (ns : list itree) (pv : list (option (inode R))) : list (option (inode R)) :=
    fold_left (fun v t => let k := Z.to_nat (in_rank R (rt_val t)) in
                 let v' := if length v <? k + 1 then v ++ repeat None (k + 1 - length v) else v in
                 list_set v' k (Some (regeo (rt_val t)))) ns pv.

  Lemma reg_app : forall a b pv, reg (a ++ b) pv = reg b (reg a pv).
  Proof. intros. unfold reg. apply fold_left_app. Qed.

  (** Registration of the nodes at relative depth j >= 1 when that is the partition. *)
  Definition regd (d : nat) (ts : list itree) (pv : list (option (inode R))) : list (option (inode R)) :=
    if d <? dp then reg (levf (dp - d) ts) pv else pv.

  Definition good (t : itree) : Prop :=
    length (in_center R (rt_val t)) = dim /\ (0 <= in_rank R (rt_val t))%Z.

  Lemma read_children_ok : forall ts d co p lv o pv,
    nth_error levels (S d) = Some lv -> nth_error co (S d) = Some o ->
    (forall i t, nth_error ts i = Some t -> nth_error lv (o + (p + i)) = Some (node_text (S d) t)) ->
    (forall t, In t ts -> length (in_center R (rt_val t)) = dim) ->
    (S d = dp -> forall t, In t ts -> (0 <= in_rank R (rt_val t))%Z) ->
    read_children R prs levels dim d co p (length ts) pv =
      Some (map (fun t => (length (rt_children t), regeo (rt_val t))) ts, if S d =? dp then reg ts pv else pv).
  Proof.
    induction ts as [|t ts IH]; intros d co p lv o pv HL Hco Hpos Hdim Hrk.
    - cbn [length read_children map]. destruct (S d =? dp); reflexivity.
    - cbn [length read_children]. rewrite HL, Hco.
      pose proof (Hpos 0 t eq_refl) as H0. rewrite Nat.add_0_r in H0. rewrite H0.
      rewrite parse_node_text by (apply Hdim; left; reflexivity).
      assert (HIH : forall pv', read_children R prs levels dim d co (S p) (length ts) pv' =
        Some (map (fun t => (length (rt_children t), regeo (rt_val t))) ts, if S d =? dp then reg ts pv' else pv')).
      { intros pv'. apply (IH d co (S p) lv o pv' HL Hco).
        - intros i t' Hi. rewrite <- (Hpos (S i) t' Hi). f_equal. lia.
        - intros t' Ht'. apply Hdim. right; exact Ht'.
        - intros E t' Ht'. apply (Hrk E). right; exact Ht'. }
      destruct (Nat.eqb_spec (S d) dp) as [E|E].
      + unfold pv_write_i. cbn [regeo in_rank].
        destruct (Z.ltb_spec (in_rank R (rt_val t)) 0) as [Hn|Hn].
        { pose proof (Hrk E t (or_introl eq_refl)). lia. }
        rewrite HIH. cbn [map]. reflexivity.
      + rewrite HIH. reflexivity.
  Qed.

  Lemma read_node_S : forall f d nch n st,
    read_node R prs (S f) levels dim d nch n st =
    match read_children R prs levels dim d (rs_co R st) 0 nch (rs_pv R st) with
    | None => None
    | Some (kids, pv') =>
        let co' := match nch with 0 => rs_co R st | _ => list_set (rs_co R st) (S d) (nth (S d) (rs_co R st) 0 + nch) end in
        match read_nodes R prs f levels dim (S d) kids (mkRstate R co' pv') with
        | None => None
        | Some (ts, st') => Some (RNode n ts, st')
        end
    end.
  Proof.
    intros f d nch n st. cbn [read_node].
    destruct (read_children _ _ _ _ _ _ _ _ _) as [[kids pv']|]; [|reflexivity]. cbv zeta.
    generalize (mkRstate R match nch with 0 => rs_co R st | S _ => list_set (rs_co R st) (S d) (nth (S d) (rs_co R st) 0 + nch) end pv').
    intros st0.
    match goal with |- match ?A with _ => _ end = match ?B with _ => _ end => assert (E : A = B) end.
    { revert st0. induction kids as [|[k m] ks IH]; intros st0; cbn [read_nodes]; [reflexivity|].
      destruct (read_node _ _ _ _ _ _ _ _ _) as [[t st1]|]; [|reflexivity]. rewrite IH. reflexivity. }
    rewrite E. reflexivity.
  Qed.

  Definition co_adv (d : nat) (ts : list itree) (co co' : list nat) : Prop :=
    forall e, nth_error co' e = if d <? e then option_map (fun x => x + length (levf (e - d) ts)) (nth_error co e) else nth_error co e.

  Lemma levf_cons : forall j t (ts : list itree), levf j (t :: ts) = lev j t ++ levf j ts.
  Proof. reflexivity. Qed.

  Lemma levf_one : forall j (t : itree), levf j [t] = lev j t.
  Proof. intros. unfold levf. simpl. apply app_nil_r. Qed.

  Lemma co_adv_trans : forall d a b co co1 co2, co_adv d a co co1 -> co_adv d b co1 co2 -> co_adv d (a ++ b) co co2.
  Proof.
    intros d a b co co1 co2 H1 H2 e. rewrite H2, H1. destruct (d <? e); [|reflexivity].
    unfold levf. rewrite map_app, concat_app, app_length.
    destruct (nth_error co e); cbn [option_map]; [|reflexivity].
    rewrite Nat.add_assoc. reflexivity.
  Qed.

  Lemma slot_first : forall co e a b, slot co e (a ++ b) -> slot co e a.
  Proof.
    intros co e a b [H|(pre & post & H1 & H2)].
    - left. apply app_eq_nil in H. apply H.
    - right. exists pre, (map (node_text e) b ++ post). split; [|exact H2].
      rewrite H1, map_app, <- app_assoc. reflexivity.
  Qed.

  Lemma slot_second : forall co co' e a b, slot co e (a ++ b) ->
    nth_error co' e = option_map (fun x => x + length a) (nth_error co e) -> slot co' e b.
  Proof.
    intros co co' e a b [H|(pre & post & H1 & H2)] Hco.
    - left. apply app_eq_nil in H. apply H.
    - right. exists (pre ++ map (node_text e) a), post. split.
      + rewrite H1, map_app, <- !app_assoc. reflexivity.
      + rewrite Hco, H2. simpl. rewrite app_length, map_length. reflexivity.
  Qed.

  (** The partition may also be above or at the current depth, then nothing is registered. *)
  Lemma read_ok : forall fuel,
    (forall t d st, length (preorder t) <= fuel ->
       (forall u, In u (preorder t) -> length (in_center R (rt_val u)) = dim) ->
       (forall u, In u (lev (dp - d) t) -> d < dp -> (0 <= in_rank R (rt_val u))%Z) ->
       (forall j, 1 <= j -> slot (rs_co R st) (d + j) (lev j t)) ->
       exists st', read_node R prs fuel levels dim d (length (rt_children t)) (regeo (rt_val t)) st = Some (rmap regeo t, st') /\
         co_adv d [t] (rs_co R st) (rs_co R st') /\ rs_pv R st' = regd d [t] (rs_pv R st)) /\
    (forall ts d st, (forall t, In t ts -> length (preorder t) <= fuel) ->
       (forall t u, In t ts -> In u (preorder t) -> length (in_center R (rt_val u)) = dim) ->
       (forall u, In u (levf (dp - d) ts) -> d < dp -> (0 <= in_rank R (rt_val u))%Z) ->
       (forall j, 1 <= j -> slot (rs_co R st) (d + j) (levf j ts)) ->
       exists st', read_nodes R prs fuel levels dim d (map (fun t => (length (rt_children t), regeo (rt_val t))) ts) st
                     = Some (map (rmap regeo) ts, st') /\
         co_adv d ts (rs_co R st) (rs_co R st') /\ rs_pv R st' = regd d ts (rs_pv R st)).
  Proof.
    assert (HL : forall fuel,
     (forall t d st, length (preorder t) <= fuel ->
       (forall u, In u (preorder t) -> length (in_center R (rt_val u)) = dim) ->
       (forall u, In u (lev (dp - d) t) -> d < dp -> (0 <= in_rank R (rt_val u))%Z) ->
       (forall j, 1 <= j -> slot (rs_co R st) (d + j) (lev j t)) ->
       exists st', read_node R prs fuel levels dim d (length (rt_children t)) (regeo (rt_val t)) st = Some (rmap regeo t, st') /\
         co_adv d [t] (rs_co R st) (rs_co R st') /\ rs_pv R st' = regd d [t] (rs_pv R st)) ->
     (forall ts d st, (forall t, In t ts -> length (preorder t) <= fuel) ->
       (forall t u, In t ts -> In u (preorder t) -> length (in_center R (rt_val u)) = dim) ->
       (forall u, In u (levf (dp - d) ts) -> d < dp -> (0 <= in_rank R (rt_val u))%Z) ->
       (forall j, 1 <= j -> slot (rs_co R st) (d + j) (levf j ts)) ->
       exists st', read_nodes R prs fuel levels dim d (map (fun t => (length (rt_children t), regeo (rt_val t))) ts) st
                     = Some (map (rmap regeo) ts, st') /\
         co_adv d ts (rs_co R st) (rs_co R st') /\ rs_pv R st' = regd d ts (rs_pv R st))).
    { intros fuel HB. induction ts as [|t ts IH]; intros d st Hf Hdim Hrk Hs.
      - exists st. split; [reflexivity|]. split.
        + intros e. unfold levf. simpl. destruct (d <? e); [|reflexivity].
          destruct (nth_error (rs_co R st) e); simpl; [f_equal; lia|reflexivity].
        + unfold regd. destruct (d <? dp); reflexivity.
      - cbn [map read_nodes].
        destruct (HB t d st) as (st1 & E1 & C1 & P1).
        { apply Hf. left; reflexivity. }
        { intros u. apply Hdim. left; reflexivity. }
        { intros u Hu. apply Hrk. rewrite levf_cons. apply in_or_app. left; exact Hu. }
        { intros j Hj. apply (slot_first _ _ _ (levf j ts)). rewrite <- levf_cons. apply Hs, Hj. }
        rewrite E1.
        destruct (IH d st1) as (st2 & E2 & C2 & P2).
        { intros t' Ht'. apply Hf. right; exact Ht'. }
        { intros t' u Ht'. apply Hdim. right; exact Ht'. }
        { intros u Hu. apply Hrk. rewrite levf_cons. apply in_or_app. right; exact Hu. }
        { intros j Hj. apply (slot_second (rs_co R st) _ _ (lev j t)).
          - rewrite <- levf_cons. apply Hs, Hj.
          - rewrite C1. destruct (Nat.ltb_spec d (d + j)); [|lia].
            replace (d + j - d) with j by lia. rewrite levf_one. reflexivity. }
        rewrite E2. exists st2. split; [reflexivity|]. split.
        + apply (co_adv_trans d [t] ts _ _ _ C1 C2).
        + rewrite P2, P1. unfold regd. destruct (d <? dp); [|reflexivity].
          rewrite levf_one, levf_cons, reg_app. reflexivity. }
    induction fuel as [|f [IHb IHl]].
    - split.
      + intros t d st Hf. rewrite preorder_eq in Hf. simpl in Hf. lia.
      + apply HL. intros t d st Hf. rewrite preorder_eq in Hf. simpl in Hf. lia.
    - match goal with |- ?A /\ _ => assert (HB : A) end.
      { intros [a ts] d st Hf Hdim Hrk Hs. cbn [rt_children rt_val].
        rewrite read_node_S.
        assert (Hlev1 : lev 1 (RNode a ts) = ts) by apply levf_0.
        assert (HdimC : forall t, In t ts -> length (in_center R (rt_val t)) = dim).
        { intros t Ht. apply Hdim. rewrite preorder_eq. right. apply in_concat. exists (preorder t).
          split; [apply in_map, Ht|]. rewrite preorder_eq. left; reflexivity. }
        assert (Hkids : read_children R prs levels dim d (rs_co R st) 0 (length ts) (rs_pv R st) =
           Some (map (fun t => (length (rt_children t), regeo (rt_val t))) ts, if S d =? dp then reg ts (rs_pv R st) else rs_pv R st)).
        { pose proof (Hs 1 (le_n 1)) as S1. rewrite Hlev1 in S1. rewrite Nat.add_1_r in S1.
          destruct S1 as [->|(pre & post & S1 & S2)].
          - cbn [length read_children map]. destruct (S d =? dp); reflexivity.
          - eapply read_children_ok; [exact S1|exact S2| |exact HdimC|].
            + intros i t Hi. cbn [plus]. rewrite nth_error_app2 by lia.
              replace (length pre + i - length pre) with i by lia.
              rewrite nth_error_app1 by (rewrite map_length; apply nth_error_Some; congruence).
              apply map_nth_error, Hi.
            + intros E t Ht. apply Hrk; [|lia]. replace (dp - d) with 1 by lia. rewrite Hlev1. exact Ht. }
        rewrite Hkids. cbv zeta.
        set (co' := match length ts with 0 => rs_co R st | _ => list_set (rs_co R st) (S d) (nth (S d) (rs_co R st) 0 + length ts) end).
        assert (Hco' : forall e, nth_error co' e = if e =? S d then option_map (fun x => x + length ts) (nth_error (rs_co R st) e) else nth_error (rs_co R st) e).
        { intros e. unfold co'. destruct (length ts) as [|m] eqn:El.
          - destruct (Nat.eqb_spec e (S d)) as [->|]; [|reflexivity].
            destruct (nth_error (rs_co R st) (S d)); simpl; [f_equal; lia|reflexivity].
          - rewrite list_set_nth_error. destruct (Nat.eqb_spec e (S d)) as [->|]; [|reflexivity].
            destruct (Nat.ltb_spec (S d) (length (rs_co R st))) as [Hlt|Hge]; cbn [andb].
            + rewrite (nth_error_nth' _ 0 Hlt). reflexivity.
            + rewrite (proj2 (nth_error_None _ _) Hge). reflexivity. }
        destruct (IHl ts (S d) (mkRstate R co' (if S d =? dp then reg ts (rs_pv R st) else rs_pv R st))) as (st' & E & C & Pv).
        { intros t Ht. cbn [preorder length] in Hf.
          assert (length (preorder t) <= length (concat (map preorder ts))); [|lia].
          apply in_split in Ht. destruct Ht as (l1 & l2 & ->). rewrite map_app, concat_app. cbn [map concat].
          rewrite !app_length. lia. }
        { intros t u Ht Hu. apply Hdim. rewrite preorder_eq. right. apply in_concat. exists (preorder t).
          split; [apply in_map, Ht|exact Hu]. }
        { intros u Hu Hlt. apply Hrk; [|lia]. replace (dp - d) with (S (dp - S d)) by lia. exact Hu. }
        { intros j Hj. cbn [rs_co]. pose proof (Hs (S j) ltac:(lia)) as Q.
          destruct Q as [Q|(pre & post & Q1 & Q2)]; [left; exact Q|].
          right. exists pre, post. replace (S d + j) with (d + S j) by lia. split; [exact Q1|].
          rewrite Hco'. destruct (Nat.eqb_spec (d + S j) (S d)); [lia|exact Q2]. }
        rewrite E. exists st'. split; [reflexivity|]. cbn [rs_co rs_pv] in *. split.
        - intros e. rewrite C, Hco'. rewrite levf_one.
          destruct (Nat.ltb_spec d e) as [Hlt|Hge].
          + destruct (Nat.eqb_spec e (S d)) as [->|Hne].
            * destruct (Nat.ltb_spec (S d) (S d)); [lia|]. replace (S d - d) with 1 by lia.
              rewrite Hlev1. reflexivity.
            * destruct (Nat.ltb_spec (S d) e); [|lia].
              replace (e - d) with (S (e - S d)) by lia. reflexivity.
          + destruct (Nat.ltb_spec (S d) e); [lia|]. destruct (Nat.eqb_spec e (S d)); [lia|reflexivity].
        - rewrite Pv. unfold regd. rewrite levf_one.
          destruct (Nat.ltb_spec d dp) as [Hlt|Hge].
          + destruct (Nat.eqb_spec (S d) dp) as [Ed|Ed].
            * destruct (Nat.ltb_spec (S d) dp); [lia|]. replace (dp - d) with 1 by lia. rewrite Hlev1. reflexivity.
            * destruct (Nat.ltb_spec (S d) dp); [|lia]. replace (dp - d) with (S (dp - S d)) by lia. reflexivity.
          + destruct (Nat.ltb_spec (S d) dp); [lia|]. destruct (Nat.eqb_spec (S d) dp); [lia|reflexivity]. }
      split; [exact HB|]. apply HL, HB.
  Qed.
End IO.

(** ** Assembly *)

Section Assembly.
  Variable R : Type.
  Variable fmt : R -> str.
  Variable prs : str -> R.
  Hypothesis Hfmt : forall r, clean (fmt r).

  Lemma save_ok : forall dp maxd t, lev (S maxd) t = [] ->
    exists outs, push_all R fmt dp (repeat [] (S maxd)) (preorder_depth R 0 t) = Some outs /\ length outs = S maxd /\
      forall e, e <= maxd -> nth_error outs e = Some (map (node_text R fmt dp e) (lev e t)).
  Proof.
    intros dp maxd t Hm.
    destruct (push_all_spec R fmt dp (preorder_depth R 0 t) (repeat [] (S maxd))) as (outs & Ho & HL & HN).
    { intros p Hp. rewrite repeat_length. destruct (preorder_depth_bound R t 0 p Hp) as [_ Hin].
      rewrite Nat.sub_0_r in Hin.
      destruct (Nat.lt_ge_cases (fst p) (S maxd)) as [Q|Q]; [exact Q|].
      rewrite (lev_empty_up _ t _ _ Hm Q) in Hin. contradiction. }
    rewrite repeat_length in *.
    exists outs. split; [exact Ho|]. split; [exact HL|]. intros e He.
    rewrite (nth_error_nth' outs []) by (rewrite HL; lia). f_equal. rewrite HN by lia.
    pose proof (sel_lev R t 0 e) as Hsl. cbn [plus] in Hsl. rewrite Hsl. clear Hsl.
    assert (nth e (repeat (@nil str) (S maxd)) [] = []) as ->; [|reflexivity].
    clear. generalize (S maxd). intros n. revert e. induction n as [|n IH]; intros [|e]; simpl; auto.
  Qed.

  Lemma reg_seq : forall ts, map (fun t => in_rank R (rt_val t)) ts = map Z.of_nat (seq 0 (length ts)) ->
    reg R fmt prs ts [] = map (fun t => Some (regeo fmt prs (rt_val t))) ts.
  Proof.
    induction ts as [|t ts IH] using rev_ind; intros H; [reflexivity|].
    rewrite app_length, seq_app, !map_app in H. cbn [length seq map] in H.
    apply app_inj_tail in H. destruct H as [H1 H2]. rewrite reg_app, IH by exact H1.
    unfold reg. cbn [fold_left]. rewrite H2, Nat2Z.id. cbn [plus]. rewrite map_length.
    destruct (Nat.ltb_spec (length ts) (length ts + 1)); [|lia].
    replace (length ts + 1 - length ts) with 1 by lia. cbn [repeat].
    rewrite map_app. cbn [map]. unfold list_set.
    rewrite firstn_app, map_length, Nat.sub_diag, firstn_all2 by (rewrite map_length; lia).
    rewrite skipn_app, map_length, Nat.sub_diag, skipn_all2 by (rewrite map_length; lia).
    cbn [firstn skipn app]. rewrite app_nil_r. reflexivity.
  Qed.

  Lemma save_read : forall dp maxd dim t,
    lev (S maxd) t = [] -> 0 < dp ->
    in_counter R (rt_val t) = 0 ->
    (forall u, In u (preorder t) -> length (in_center R (rt_val u)) = dim) ->
    map (fun u => in_rank R (rt_val u)) (lev dp t) = map Z.of_nat (seq 0 (length (lev dp t))) ->
    exists text, save_tree R fmt dp maxd t = Some text /\
      read_tree R prs (length (preorder t)) text =
        Some (rmap (regeo fmt prs) t, map (fun u => Some (regeo fmt prs (rt_val u))) (lev dp t)).
  Proof.
    intros dp maxd dim t Hm Hdp Hcnt Hdim Hrk.
    destruct (save_ok dp maxd t Hm) as (outs & Ho & HL & HN).
    unfold save_tree. rewrite Ho. exists (lines_text (map commas outs)). split; [reflexivity|].
    assert (Hcl : forall l s, In l outs -> In s l -> ~ In ","%char s /\ ~ In newline s).
    { intros l s Hl Hs. apply In_nth_error in Hl. destruct Hl as [e He].
      assert (e <= maxd). { assert (e < length outs) by (apply nth_error_Some; congruence). lia. }
      rewrite HN in He by exact H. injection He as <-. apply in_map_iff in Hs. destruct Hs as (u & <- & _).
      apply node_text_no_comma, Hfmt. }
    unfold read_tree. rewrite getlines_lines.
    2:{ intros l Hl. apply in_map_iff in Hl. destruct Hl as (x & <- & Hx). rewrite commas_sep.
        apply sep_by_notin; [discriminate|]. intros s Hs. apply (Hcl x s Hx Hs). }
    rewrite split_lines_ok by (intros l s Hl Hs; apply (Hcl l s Hl Hs)).
    set (levels := map fill_empty outs).
    assert (HLv : forall e, e <= maxd -> lev e t <> [] -> nth_error levels e = Some (map (node_text R fmt dp e) (lev e t))).
    { intros e He Hne. unfold levels. rewrite nth_error_map, (HN e He). simpl.
      destruct (lev e t); [congruence|reflexivity]. }
    rewrite (HLv 0) by (simpl; try lia; discriminate). cbn [lev map].
    rewrite node_text_split by exact Hfmt.
    assert (Hroot : In t (preorder t)) by (rewrite preorder_eq; left; reflexivity).
    assert (Hdimf : length (node_fields R fmt dp 0 t) - 7 = dim).
    { unfold node_fields. rewrite app_length, map_length, (Hdim t Hroot). simpl. lia. }
    rewrite Hdimf. rewrite parse_node_text by (auto; apply Hdim, Hroot).
    assert (Hr0 : mkInode R (in_rank R (regeo fmt prs (rt_val t))) (in_off R (regeo fmt prs (rt_val t)))
              (in_size R (regeo fmt prs (rt_val t))) 0 (in_radius R (regeo fmt prs (rt_val t)))
              (in_center R (regeo fmt prs (rt_val t))) = regeo fmt prs (rt_val t)).
    { unfold regeo. cbn. rewrite Hcnt. reflexivity. }
    cbv zeta. rewrite Hr0.
    assert (Hlen : length levels = S maxd) by (unfold levels; rewrite map_length; exact HL).
    destruct (proj1 (read_ok R fmt prs Hfmt dp dim levels (length (preorder t))) t 0
                (mkRstate R (repeat 0 (length levels)) [])) as (st' & E & _ & Pv).
    - lia.
    - exact Hdim.
    - intros u Hu _. rewrite Nat.sub_0_r in Hu.
      apply (in_map (fun u => in_rank R (rt_val u))) in Hu. rewrite Hrk in Hu.
      apply in_map_iff in Hu. destruct Hu as (k & <- & _). lia.
    - intros j Hj. destruct (lev j t) as [|u us] eqn:El; [left; reflexivity|right].
      exists [], []. cbn [app length plus rs_co]. rewrite app_nil_r, <- El.
      assert (Hjm : j <= maxd).
      { destruct (Nat.le_gt_cases j maxd) as [Q|Q]; [exact Q|].
        rewrite (lev_empty_up _ t _ _ Hm Q) in El. discriminate. }
      split; [apply HLv; [exact Hjm|congruence]|].
      rewrite (nth_error_nth' _ 0) by (rewrite repeat_length; lia). f_equal.
      clear. generalize (length levels). intros n. revert j. induction n as [|n IH]; intros [|j]; simpl; auto.
    - rewrite E. do 2 f_equal. cbn [rs_pv] in Pv. rewrite Pv. unfold regd.
      destruct (Nat.ltb_spec 0 dp); [|lia]. rewrite levf_one, Nat.sub_0_r. apply reg_seq, Hrk.
  Qed.
End Assembly.

(** ** The properties file *)

Lemma last_field_label : forall ws num, (forall w, In w ws -> ~ In space w) -> ~ In space num ->
  last_field (concat (map (fun w => w ++ [space]) ws) ++ num) = Some num.
Proof.
  intros ws num Hw Hn. unfold last_field.
  assert (E : concat (map (fun w => w ++ [space]) ws) ++ num = sep_by space (ws ++ [num])).
  { clear. induction ws as [|w ws IH]; [reflexivity|]. cbn [map concat app]. rewrite <- !app_assoc. cbn [app].
    rewrite IH. destruct (ws ++ [num]) as [|x l] eqn:E; [destruct ws; discriminate|]. reflexivity. }
  rewrite E. destruct (ws ++ [num]) as [|x l] eqn:El; [destruct ws; discriminate|].
  rewrite split_sep.
  - f_equal. rewrite <- El. apply last_last.
  - rewrite <- El. intros t Ht. apply in_app_or in Ht. destruct Ht as [Ht|[<-|[]]]; auto.
Qed.

Lemma stoi_all_print : forall l, stoi_all (map print_nat l) = Some l.
Proof. induction l as [|n l IH]; [reflexivity|]. cbn [map stoi_all]. rewrite stoi_nat_print, IH. reflexivity. Qed.

Lemma properties_round_trip : forall minsize maxd mind perm loc, perm <> [] ->
  read_properties (length perm) (save_properties minsize maxd mind perm loc) = Some (minsize, maxd, mind, perm, loc).
Proof.
  intros minsize maxd mind perm loc Hne. unfold save_properties, read_properties.
  destruct perm as [|p0 perm0] eqn:Ep; [congruence|]. rewrite <- Ep in *.
  assert (Hc : ~ In newline (commas (map print_nat perm)) /\ ~ In space (commas (map print_nat perm))).
  { rewrite commas_sep. split; (apply sep_by_notin; [discriminate|]); intros s Hs; apply in_map_iff in Hs;
      destruct Hs as (n & <- & _); apply print_nat_clean. }
  set (toks := commas (map print_nat perm)) in *.
  set (b := print_nat (if loc then 1 else 0)).
  assert (Hlab : forall lab s, ~ In newline lab -> ~ In newline s -> ~ In newline (lab ++ s)).
  { intros lab s H1 H2 H. apply in_app_or in H. tauto. }
  assert (L : forall lab, In lab [lab1; lab2; lab3; lab4; lab5] -> ~ In newline lab).
  { intros lab H Hin. simpl in H.
    repeat (destruct H as [<-|H]; [vm_compute in Hin; repeat (destruct Hin as [Q|Hin]; [discriminate Q|]); exact Hin|]). exact H. }
  assert (N : forall n, ~ In newline (print_nat n)) by (intros n; apply print_nat_clean).
  assert (T : lab1 ++ print_nat minsize ++ [newline] ++ lab2 ++ print_nat maxd ++ [newline] ++ lab3 ++ print_nat mind ++ [newline] ++
      lab4 ++ (toks ++ [newline]) ++ lab5 ++ b ++ [newline] =
    lines_text [lab1 ++ print_nat minsize; lab2 ++ print_nat maxd; lab3 ++ print_nat mind; lab4 ++ toks; lab5 ++ b]).
  { unfold lines_text. cbn [map concat]. rewrite !app_nil_r. rewrite <- !app_assoc. reflexivity. }
  rewrite T. rewrite getlines_lines.
  2:{ intros l Hl. cbn [In] in Hl.
      repeat (destruct Hl as [<-|Hl]; [apply Hlab; [apply L; simpl; tauto|first [apply N|apply Hc]]|]). contradiction. }
  assert (S1 : forall n, ~ In space (print_nat n)) by (intros n; apply print_nat_clean).
  assert (F1 : forall num, ~ In space num -> last_field (lab1 ++ num) = Some num).
  { intros num Hn. apply (last_field_label [removelast lab1] num); [|exact Hn].
    intros w [<-|[]] Q. vm_compute in Q. repeat (destruct Q as [Q|Q]; [discriminate Q|]). exact Q. }
  assert (F2 : forall num, ~ In space num -> last_field (lab2 ++ num) = Some num).
  { intros num Hn. apply (last_field_label [firstn 7 lab2; removelast (skipn 8 lab2)] num); [|exact Hn].
    intros w [<-|[<-|[]]] Q; vm_compute in Q; repeat (destruct Q as [Q|Q]; [discriminate Q|]); exact Q. }
  assert (F3 : forall num, ~ In space num -> last_field (lab3 ++ num) = Some num).
  { intros num Hn. apply (last_field_label [firstn 7 lab3; removelast (skipn 8 lab3)] num); [|exact Hn].
    intros w [<-|[<-|[]]] Q; vm_compute in Q; repeat (destruct Q as [Q|Q]; [discriminate Q|]); exact Q. }
  assert (F4 : forall num, ~ In space num -> last_field (lab4 ++ num) = Some num).
  { intros num Hn. apply (last_field_label [removelast lab4] num); [|exact Hn].
    intros w [<-|[]] Q. vm_compute in Q. repeat (destruct Q as [Q|Q]; [discriminate Q|]). exact Q. }
  assert (F5 : forall num, ~ In space num -> last_field (lab5 ++ num) = Some num).
  { intros num Hn. apply (last_field_label [firstn 5 lab5; removelast (skipn 6 lab5)] num); [|exact Hn].
    intros w [<-|[<-|[]]] Q; vm_compute in Q; repeat (destruct Q as [Q|Q]; [discriminate Q|]); exact Q. }
  rewrite F1, F2, F3, F4, F5 by first [apply S1|apply Hc].
  rewrite !stoi_nat_print. unfold toks. rewrite commas_sep.
  assert (Sp : split (sep_by ","%char (map print_nat perm)) [","%char] = Some (map print_nat perm)).
  { rewrite Ep. cbn [map]. apply split_sep. intros t Ht.
    change (print_nat p0 :: map print_nat perm0) with (map print_nat (p0 :: perm0)) in Ht.
    apply in_map_iff in Ht. destruct Ht as (n & <- & _). apply print_nat_clean. }
  rewrite Sp. unfold b. rewrite stoi_nat_print, stoi_all_print, Nat.leb_refl.
  rewrite skipn_all2 by (rewrite seq_length; lia). rewrite app_nil_r.
  destruct loc; reflexivity.
Qed.
