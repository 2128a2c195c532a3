(** * Proofs about traversals, strings, binary files. *)

From Coq Require Import List Arith ZArith Bool Ascii Lia Permutation.
From Verif Require Import ClusterModel ClusterProofs ClusterPartition IOModel IOSpec.
Import ListNotations.

(** ** Trees *)

Fixpoint rtree_ind' (A : Type) (Q : rtree A -> Prop)
  (H : forall a ts, (forall t, In t ts -> Q t) -> Q (RNode a ts)) (t : rtree A) : Q t :=
  match t with
  | RNode a ts =>
      H a ts ((fix go (l : list (rtree A)) : forall t, In t l -> Q t :=
                 match l return forall t, In t l -> Q t with
                 | [] => fun t Ht => match Ht with end
                 | x :: l' => fun t Ht =>
                     match Ht with
                     | or_introl e => eq_ind x Q (rtree_ind' A Q H x) t e
                     | or_intror Ht' => go l' t Ht'
                     end
                 end) ts)
  end.

(** Specification of the preorder: the node, then its children's preorders in order. *)
Lemma preorder_eq : forall A (t : rtree A), preorder t = t :: concat (map preorder (rt_children t)).
Proof. intros A [a ts]. reflexivity. Qed.

Lemma push_rev : forall A (l st : list A), fold_left (fun st c => c :: st) (rev l) st = l ++ st.
Proof.
  induction l as [|x l IH]; intros st; [reflexivity|]. simpl. rewrite fold_left_app. simpl. rewrite IH. reflexivity.
Qed.

Lemma preorder_run_mono : forall A f (stack vis : list (rtree A)) r, preorder_run f stack vis = Some r ->
  forall g, f <= g -> preorder_run g stack vis = Some r.
Proof.
  induction f as [|f IH]; intros stack vis r H g Hg.
  - destruct stack; [|discriminate]. destruct g; exact H.
  - destruct stack as [|t stack]; [destruct g; exact H|]. destruct g as [|g]; [lia|].
    cbn [preorder_run] in *. apply (IH _ _ _ H). lia.
Qed.

Lemma preorder_run_spec : forall A (t : rtree A) stack vis g r,
  preorder_run g stack (vis ++ preorder t) = Some r ->
  preorder_run (length (preorder t) + g) (t :: stack) vis = Some r.
Proof.
  intros A t. induction t as [a ts IH] using rtree_ind'. intros stack vis g r H.
  cbn [preorder length plus preorder_run rt_children]. rewrite push_rev.
  assert (HL : forall l stack vis g r, (forall t, In t l -> In t ts) ->
    preorder_run g stack (vis ++ concat (map preorder l)) = Some r ->
    preorder_run (length (concat (map preorder l)) + g) (l ++ stack) vis = Some r).
  { induction l as [|t l IHl]; intros stack0 vis0 g0 r0 Hin Hr.
    - simpl in *. rewrite app_nil_r in Hr. exact Hr.
    - cbn [map concat] in *. rewrite app_length, <- Nat.add_assoc. cbn [app].
      apply IH; [apply Hin; left; reflexivity|].
      apply IHl; [intros x Hx; apply Hin; right; exact Hx|]. rewrite <- app_assoc. exact Hr. }
  apply HL; [auto|]. rewrite <- app_assoc. exact H.
Qed.

Lemma preorder_run_ok : forall A (t : rtree A),
  preorder_run (length (preorder t)) [t] [] = Some (preorder t).
Proof.
  intros A t. replace (length (preorder t)) with (length (preorder t) + 0) by lia.
  apply preorder_run_spec. reflexivity.
Qed.

Lemma postorder_perm : forall A (t : rtree A), Permutation (postorder_visits t) (preorder t).
Proof.
  intros A t. induction t as [a ts IH] using rtree_ind'. cbn [postorder_visits preorder].
  eapply perm_trans; [apply Permutation_app_comm|]. cbn [app]. apply perm_skip.
  induction ts as [|t ts IHl]; [reflexivity|]. cbn [map concat]. apply Permutation_app.
  - apply IH. left; reflexivity.
  - apply IHl. intros x Hx. apply IH. right; exact Hx.
Qed.

(** ** split and join *)

(** Tokens separated by one character. *)
Lemma sep_by_cons : forall c s s' l, sep_by c (s :: s' :: l) = s ++ c :: sep_by c (s' :: l).
Proof. reflexivity. Qed.

Lemma find_single_None : forall c s, ~ In c s -> find_sub [c] s = None.
Proof.
  induction s as [|b s IH]; intros H; [reflexivity|].
  cbn [find_sub is_prefix]. destruct (Ascii.eqb_spec c b) as [->|Hne].
  - exfalso. apply H. left; reflexivity.
  - cbn [andb]. rewrite IH; [reflexivity|]. intros Hin. apply H. right; exact Hin.
Qed.

Lemma find_single_Some : forall c s rest, ~ In c s -> find_sub [c] (s ++ c :: rest) = Some (length s).
Proof.
  induction s as [|b s IH]; intros rest H.
  - cbn [app find_sub is_prefix]. rewrite Ascii.eqb_refl. reflexivity.
  - cbn [app find_sub is_prefix]. destruct (Ascii.eqb_spec c b) as [->|Hne].
    + exfalso. apply H. left; reflexivity.
    + cbn [andb]. rewrite IH; [reflexivity|]. intros Hin. apply H. right; exact Hin.
Qed.

Lemma split_fuel_sep : forall c l s elems fuel,
  (forall t, In t (s :: l) -> ~ In c t) -> length l <= fuel ->
  split_fuel fuel (sep_by c (s :: l)) [c] elems = Some (elems ++ s :: l).
Proof.
  induction l as [|s' l IH]; intros s elems fuel H Hf.
  - cbn [sep_by]. destruct fuel; cbn [split_fuel]; rewrite find_single_None;
      try reflexivity; apply H; left; reflexivity.
  - rewrite sep_by_cons. cbn [length] in Hf. destruct fuel as [|fuel]; [lia|]. cbn [split_fuel].
    rewrite find_single_Some by (apply H; left; reflexivity).
    cbn [length]. rewrite Nat.add_1_r.
    match goal with |- split_fuel _ ?x _ _ = _ => assert (E : x = sep_by c (s' :: l)) end.
    { replace (S (length s)) with (length (s ++ [c])) by (rewrite app_length; simpl; lia).
      change (c :: sep_by c (s' :: l)) with ([c] ++ sep_by c (s' :: l)). rewrite app_assoc.
      rewrite skipn_app, skipn_all, Nat.sub_diag. reflexivity. }
    rewrite E. clear E.
    rewrite firstn_app, firstn_all, Nat.sub_diag. cbn [firstn]. rewrite app_nil_r.
    rewrite IH.
    + rewrite <- app_assoc. reflexivity.
    + intros t Ht. apply H. right; exact Ht.
    + lia.
Qed.

Lemma sep_by_length : forall c l s, length l <= length (sep_by c (s :: l)).
Proof.
  induction l as [|s' l IH]; intros s; [simpl; lia|]. rewrite sep_by_cons, app_length. cbn [length].
  specialize (IH s'). lia.
Qed.

Lemma split_sep : forall c l s, (forall t, In t (s :: l) -> ~ In c t) ->
  split (sep_by c (s :: l)) [c] = Some (s :: l).
Proof.
  intros c l s H. unfold split. rewrite split_fuel_sep; [reflexivity|exact H|].
  pose proof (sep_by_length c l s). lia.
Qed.

Lemma sep_by_snoc : forall c l s t, sep_by c ((s :: l) ++ [t]) = sep_by c (s :: l) ++ c :: t.
Proof.
  induction l as [|s' l IH]; intros s t; [reflexivity|].
  change ((s :: s' :: l) ++ [t]) with (s :: (s' :: l) ++ [t]).
  change (sep_by c (s :: (s' :: l) ++ [t])) with (s ++ c :: sep_by c ((s' :: l) ++ [t])).
  rewrite IH, sep_by_cons, <- app_assoc. reflexivity.
Qed.

Lemma join_sep : forall c l s, s <> [] -> join [c] (s :: l) = sep_by c (s :: l).
Proof.
  intros c l s Hs. unfold join. cbn [fold_left].
  induction l as [|t l IH] using rev_ind; [reflexivity|].
  rewrite fold_left_app. cbn [fold_left]. rewrite IH.
  change (s :: l ++ [t]) with ((s :: l) ++ [t]). rewrite sep_by_snoc.
  destruct (sep_by c (s :: l)) as [|a q] eqn:E; [|reflexivity].
  destruct l; simpl in E; [congruence|]. destruct s; discriminate.
Qed.

Lemma join_skip_empty : forall d l, join d ([] :: l) = join d l.
Proof. reflexivity. Qed.

Lemma split_empty_delim : forall fuel s elems, split_fuel fuel s [] elems = None.
Proof.
  induction fuel as [|f IH]; intros s elems; destruct s; cbn [split_fuel find_sub is_prefix]; auto.
Qed.

Lemma find_sub_pos : forall d s p, find_sub d s = Some p -> p + length d <= length s.
Proof.
  intros d. induction s as [|a s IH]; intros p H.
  - simpl in H. destruct d; [|discriminate]. simpl in H. injection H as <-. simpl. lia.
  - cbn [find_sub] in H. destruct (is_prefix d (a :: s)) eqn:E.
    + injection H as <-. clear - E. simpl plus. revert E. generalize (a :: s) as l. clear.
      induction d as [|x d IH]; intros [|y l] E; simpl in *; try lia; try discriminate.
      apply andb_true_iff in E. destruct E as [_ E]. apply IH in E. lia.
    + destruct (find_sub d s) as [q|] eqn:Eq; [|discriminate]. simpl in H. injection H as <-.
      specialize (IH q eq_refl). simpl. lia.
Qed.

(** split terminates for every string and every non-empty delimiter *)
Lemma split_total : forall s d, d <> [] -> split s d <> None.
Proof.
  intros s d Hd. unfold split.
  assert (H : forall fuel s elems, length s < fuel -> split_fuel fuel s d elems <> None).
  { induction fuel as [|f IH]; intros s0 elems Hf; [lia|]. cbn [split_fuel].
    destruct (find_sub d s0) as [p|] eqn:E; [|discriminate].
    apply IH. apply find_sub_pos in E. rewrite skipn_length.
    destruct d; [congruence|]. simpl in *. lia. }
  apply H. lia.
Qed.

(** ** Decimal numbers *)

Lemma digit_of_digit : forall n, n < 10 -> digit_of (digit n) = Some n.
Proof.
  intros n H. do 10 (destruct n as [|n]; [reflexivity|]). lia.
Qed.

Lemma parse_digits_app : forall s t acc, (forall c, In c s -> digit_of c <> None) ->
  parse_digits (s ++ t) acc = parse_digits t (parse_digits s acc).
Proof.
  induction s as [|c s IH]; intros t acc H; [reflexivity|]. cbn [app parse_digits].
  destruct (digit_of c) as [d|] eqn:E.
  - apply IH. intros x Hx. apply H. right; exact Hx.
  - exfalso. apply (H c); [left; reflexivity|exact E].
Qed.

Lemma print_nat_fuel_digits : forall fuel n c, In c (print_nat_fuel fuel n) -> exists d, d < 10 /\ c = digit d.
Proof.
  induction fuel as [|f IH]; intros n c H; [contradiction|]. cbn [print_nat_fuel] in H.
  destruct (Nat.ltb_spec n 10).
  - destruct H as [<-|[]]. eauto.
  - apply in_app_or in H. destruct H as [H|[<-|[]]]; [eauto|].
    exists (n mod 10). split; [|reflexivity]. apply Nat.mod_upper_bound. lia.
Qed.

Lemma print_nat_digits : forall n c, In c (print_nat n) -> exists d, d < 10 /\ c = digit d.
Proof. intros n c. apply print_nat_fuel_digits. Qed.

Lemma parse_print_fuel : forall fuel n, n < fuel -> parse_digits (print_nat_fuel fuel n) 0 = n.
Proof.
  induction fuel as [|f IH]; intros n H; [lia|]. cbn [print_nat_fuel].
  destruct (Nat.ltb_spec n 10) as [Hn|Hn].
  - cbn [parse_digits]. rewrite digit_of_digit by exact Hn. lia.
  - rewrite parse_digits_app.
    + rewrite IH.
      * cbn [parse_digits]. rewrite digit_of_digit by (apply Nat.mod_upper_bound; lia).
        pose proof (Nat.div_mod n 10 ltac:(lia)). lia.
      * assert (n / 10 < n) by (apply Nat.div_lt; lia). lia.
    + intros c Hc. apply print_nat_fuel_digits in Hc. destruct Hc as (d & Hd & ->).
      rewrite digit_of_digit by exact Hd. discriminate.
Qed.

Lemma print_nat_fuel_cons : forall fuel n, 0 < fuel -> exists d s, d < 10 /\ print_nat_fuel fuel n = digit d :: s.
Proof.
  induction fuel as [|f IH]; intros n H; [lia|]. cbn [print_nat_fuel].
  destruct (Nat.ltb_spec n 10); [eauto|].
  destruct f as [|f].
  - cbn [print_nat_fuel app]. exists (n mod 10), []. split; [apply Nat.mod_upper_bound; lia|reflexivity].
  - destruct (IH (n / 10) ltac:(lia)) as (d & s & Hd & E). rewrite E. cbn [app]. eauto.
Qed.

Lemma parse_nat_print : forall n, parse_nat (print_nat n) = Some n.
Proof.
  intros n. unfold print_nat.
  destruct (print_nat_fuel_cons (S n) n ltac:(lia)) as (d & s & Hd & E).
  pose proof (parse_print_fuel (S n) n ltac:(lia)) as Q. rewrite E in *.
  unfold parse_nat. rewrite digit_of_digit by exact Hd. rewrite Q. reflexivity.
Qed.

Lemma digit_not_minus : forall d, d < 10 -> Ascii.eqb (digit d) "-"%char = false.
Proof. intros n H. do 10 (destruct n as [|n]; [reflexivity|]). lia. Qed.

Lemma stoi_print_nat : forall n, stoi (print_nat n) = Some (Z.of_nat n).
Proof.
  intros n. pose proof (parse_nat_print n) as Q. unfold print_nat in *.
  destruct (print_nat_fuel_cons (S n) n ltac:(lia)) as (d & s & Hd & E). rewrite E in *.
  unfold stoi. rewrite digit_not_minus by exact Hd. rewrite Q. reflexivity.
Qed.

Lemma stoi_print_Z : forall z, stoi (print_Z z) = Some z.
Proof.
  intros z. unfold print_Z. destruct (Z.ltb_spec z 0).
  - unfold stoi. rewrite Ascii.eqb_refl, parse_nat_print. cbn [option_map]. f_equal. lia.
  - rewrite stoi_print_nat. f_equal. lia.
Qed.

Lemma stoi_nat_print : forall n, stoi_nat (print_nat n) = Some n.
Proof. intros n. unfold stoi_nat. rewrite stoi_print_nat. simpl. f_equal. lia. Qed.

Lemma print_nat_clean : forall n, clean (print_nat n).
Proof.
  intros n. repeat split; intros H; apply print_nat_digits in H; destruct H as (d & Hd & E);
    do 10 (destruct d as [|d]; [discriminate|]); lia.
Qed.

Lemma print_Z_clean : forall z, clean (print_Z z).
Proof.
  intros z. unfold print_Z. destruct (z <? 0)%Z; [|apply print_nat_clean].
  destruct (print_nat_clean (Z.to_nat (- z))) as (A & B & C & D).
  repeat split; intros [E|E]; try discriminate; contradiction.
Qed.

Lemma print_nat_nonempty : forall n, print_nat n <> [].
Proof.
  intros n. unfold print_nat.
  destruct (print_nat_fuel_cons (S n) n ltac:(lia)) as (d & s & Hd & E). rewrite E. discriminate.
Qed.

(** ** Binary files *)

Lemma bytes_int_int_bytes : forall x, (0 <= x < 2 ^ 31)%Z -> bytes_int (int_bytes x) = x.
Proof.
  intros x H. unfold int_bytes, bytes_int. rewrite (Z.mod_small x (2 ^ 32)) by lia.
  set (b0 := (x mod 256)%Z). set (b1 := (x / 256 mod 256)%Z). set (b2 := (x / 65536 mod 256)%Z).
  set (b3 := (x / 16777216 mod 256)%Z).
  assert (E : (b0 + 256 * b1 + 65536 * b2 + 16777216 * b3 = x)%Z).
  { unfold b0, b1, b2, b3. pose proof (Z.div_mod x 256 ltac:(lia)).
    pose proof (Z.div_mod (x / 256) 256 ltac:(lia)). pose proof (Z.div_mod (x / 65536) 256 ltac:(lia)).
    pose proof (Z.div_mod (x / 16777216) 256 ltac:(lia)).
    assert (x / 256 / 256 = x / 65536)%Z by (rewrite Z.div_div by lia; reflexivity).
    assert (x / 65536 / 256 = x / 16777216)%Z by (rewrite Z.div_div by lia; reflexivity).
    assert (x / 16777216 / 256 = 0)%Z.
    { rewrite Z.div_div by lia. apply Z.div_small. lia. }
    lia. }
  rewrite E. destruct (Z.ltb_spec x (2 ^ 31)); lia.
Qed.

Lemma read_into_app : forall buf a b, length a = length buf -> read_into buf (a ++ b) = (a, b).
Proof.
  intros buf a b H. unfold read_into. rewrite <- H.
  rewrite firstn_app, firstn_all, Nat.sub_diag. cbn [firstn]. rewrite app_nil_r.
  rewrite (skipn_all2 buf) by (rewrite app_length; lia). rewrite app_nil_r.
  rewrite skipn_app, skipn_all, Nat.sub_diag. reflexivity.
Qed.

Section BytesProofs.
  Variable A : Type.
  Variable w : nat.
  Variable enc : A -> list byte.
  Variable dec : list byte -> A.
  Hypothesis Hlen : forall a, length (enc a) = w.
  Hypothesis Hdec : forall a, dec (enc a) = a.

  Lemma concat_enc_length : forall v, length (concat (map enc v)) = length v * w.
  Proof. induction v as [|a v IH]; [reflexivity|]. cbn [map concat length]. rewrite app_length, Hlen, IH. lia. Qed.

  Lemma dec_all_concat : forall v rest, dec_all A w dec (length v) (concat (map enc v) ++ rest) = v.
  Proof.
    induction v as [|a v IH]; intros rest; [reflexivity|]. cbn [map concat length dec_all].
    rewrite <- app_assoc. rewrite firstn_app, Hlen, Nat.sub_diag, firstn_all2 by (rewrite Hlen; lia).
    cbn [firstn]. rewrite app_nil_r, Hdec. f_equal.
    rewrite skipn_app, Hlen, Nat.sub_diag, skipn_all2 by (rewrite Hlen; lia). apply IH.
  Qed.

  Lemma vector_round_trip : forall fill v, (Z.of_nat (length v) < 2 ^ 31)%Z ->
    bytes_to_vector A w dec fill (vector_to_bytes A enc v) = Some v.
  Proof.
    intros fill v H. unfold bytes_to_vector, vector_to_bytes.
    rewrite read_into_app by reflexivity.
    rewrite bytes_int_int_bytes by lia. destruct (Z.ltb_spec (Z.of_nat (length v)) 0); [lia|].
    rewrite Nat2Z.id.
    rewrite <- (app_nil_r (concat (map enc v))).
    rewrite read_into_app by (rewrite concat_enc_length, repeat_length; reflexivity).
    f_equal. rewrite <- (app_nil_r (concat (map enc v))). apply dec_all_concat.
  Qed.

  Lemma matrix_round_trip : forall fill rows cols data, length data = rows * cols ->
    (Z.of_nat rows < 2 ^ 31)%Z -> (Z.of_nat cols < 2 ^ 31)%Z -> (Z.of_nat (rows * cols) < 2 ^ 31)%Z ->
    bytes_to_matrix A w dec fill (matrix_to_bytes A enc rows cols data) = Some (rows, cols, data).
  Proof.
    intros fill rows cols data HL Hr Hc H. unfold bytes_to_matrix, matrix_to_bytes.
    rewrite read_into_app by reflexivity. rewrite read_into_app by reflexivity.
    rewrite !bytes_int_int_bytes by lia.
    destruct (Z.ltb_spec (Z.of_nat rows) 0); [lia|]. destruct (Z.ltb_spec (Z.of_nat cols) 0); [lia|].
    rewrite <- Nat2Z.inj_mul. destruct (Z.leb_spec (2 ^ 31) (Z.of_nat (rows * cols))); [lia|]. cbn [orb].
    rewrite !Nat2Z.id, <- HL.
    rewrite <- (app_nil_r (concat (map enc data))).
    rewrite read_into_app by (rewrite concat_enc_length, repeat_length; reflexivity).
    do 2 f_equal. rewrite <- (app_nil_r (concat (map enc data))). apply dec_all_concat.
  Qed.
End BytesProofs.
