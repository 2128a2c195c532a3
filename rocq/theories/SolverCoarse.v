(** * Proofs for the GenEO coarse operator. *)

From Coq Require Import List Arith Bool Lia Ring Permutation.
From Verif Require Import ClusterModel ClusterSpec ClusterMore IOModel BlockModel Algebra BlasModel BlasProofs
  HMatModel HMatSpec HMatProofs HMatLoops HMatProducts HMatBuild HMatTop DistModel DistSpec DistProofs DistVec DistMat DistLocal DistLink SolverModel SolverSpec.
Import ListNotations.

Lemma prefix_nth : forall l acc r, r < length l -> nth r (prefix_sums acc l) 0 = acc + fold_right Nat.add 0 (firstn r l).
Proof.
  induction l as [|a l IH]; intros acc r H; cbn [length] in H; [lia|]. destruct r as [|r]; cbn [prefix_sums nth firstn fold_right]; [lia|]. rewrite IH by lia. lia.
Qed.
Lemma concat_nth : forall A (d : A) ls r j, r < length ls -> j < length (nth r ls []) ->
  nth (fold_right Nat.add 0 (firstn r (map (@length A) ls)) + j) (concat ls) d = nth j (nth r ls []) d.
Proof.
  intros A d. induction ls as [|l ls IH]; intros r j Hr Hj; cbn [length] in Hr; [lia|]. destruct r as [|r]; cbn [nth map firstn fold_right concat] in *.
  - rewrite app_nth1 by lia. reflexivity.
  - rewrite app_nth2 by lia. rewrite <- (IH r j) by (try lia; exact Hj). f_equal. lia.
Qed.
Lemma concat_len : forall A (ls : list (list A)), length (concat ls) = fold_right Nat.add 0 (map (@length A) ls).
Proof. intros A. induction ls as [|l ls IH]; [reflexivity|]. cbn [concat map fold_right]. rewrite app_length. lia. Qed.
Lemma flat_find : forall l a, a < fold_right Nat.add 0 l -> exists r j, r < length l /\ j < nth r l 0 /\ a = fold_right Nat.add 0 (firstn r l) + j.
Proof.
  induction l as [|n l IH]; intros a Ha; cbn [fold_right] in Ha; [lia|]. destruct (lt_dec a n) as [L|L].
  - exists 0, a. cbn. lia.
  - destruct (IH (a - n) ltac:(lia)) as (r & j & H1 & H2 & H3). exists (S r), j. cbn [length nth firstn fold_right]. lia.
Qed.
Lemma prefix_S : forall l r, r < length l -> fold_right Nat.add 0 (firstn (S r) l) = fold_right Nat.add 0 (firstn r l) + nth r l 0.
Proof.
  induction l as [|a l IH]; intros r H; cbn [length] in H; [lia|]. destruct r as [|r]; [cbn; lia|]. cbn [firstn fold_right nth]. cbn [firstn] in IH. rewrite IH by lia. lia.
Qed.
Lemma prefix_le : forall l r, fold_right Nat.add 0 (firstn r l) <= fold_right Nat.add 0 l.
Proof. induction l as [|a l IH]; intros [|r]; cbn [firstn fold_right]; try lia. specialize (IH r). lia. Qed.
Lemma prefix_mono : forall l r r', r <= r' -> fold_right Nat.add 0 (firstn r l) <= fold_right Nat.add 0 (firstn r' l).
Proof. induction l as [|a l IH]; intros [|r] [|r'] H; cbn [firstn fold_right]; try lia. specialize (IH r r' ltac:(lia)). lia. Qed.
Lemma max_nth : forall l r, nth r l 0 <= fold_right Nat.max 0 l.
Proof. induction l as [|a l IH]; intros [|r]; cbn [nth fold_right]; try lia. specialize (IH r). lia. Qed.
Lemma tiles_bound : forall l lo hi r o s, tiles lo hi l -> nth_error l r = Some (o, s) -> lo <= o /\ o + s <= hi.
Proof.
  induction l as [|[o' s'] l IH]; intros lo hi r o s T E; [destruct r; discriminate|]. cbn [tiles] in T. destruct T as [-> T].
  assert (G : forall l lo hi, tiles lo hi l -> lo <= hi).
  { clear. induction l as [|[o s] l IH]; intros lo hi T; cbn [tiles] in T; [lia|]. destruct T as [-> T]. specialize (IH _ _ T). lia. }
  destruct r as [|r]; [injection E as -> ->; specialize (G _ _ _ T); lia|]. destruct (IH _ _ _ _ _ T E). lia.
Qed.

Section C.
  Variable K : Coef.
  Notation C := (car K).
  Notation buf := (list C).
  Notation "0" := (c0 K).
  Notation "1" := (c1 K).
  Notation "x + y" := (cadd K x y).
  Notation "x * y" := (cmul K x y).
  Add Ring Kring20 : (c_ring K).

  Variables (parts : list (nat * nat)) (N : nat) (sym : symc) (n : nat -> nat) (zs : nat -> list buf)
            (subs : nat -> list (buf -> buf -> nat -> nat -> nat -> option buf)) (A : nat -> nat -> C).
  Hypothesis HT : tiles 0 N parts.
  Hypothesis Hn : forall r o s, nth_error parts r = Some (o, s) -> (s <= n r)%nat /\ forall z, In z (zs r) -> (s <= length z)%nat.
  Hypothesis HS : sub_products parts A subs.
  Notation P := (length parts).
  Notation lens := (nevis K parts zs).
  Notation SE := (size_E K parts zs).
  Notation dis i := (fold_right Nat.add 0%nat (firstn i lens)).
  Notation vecs := (all_vectors parts zs).

  (** conjugation of the coarse vectors on one side only, for H *)
  Definition cj (x : C) : C := match sym with SyH => cconj K x | _ => x end.
  Definition vec (a : nat) : nat -> C := extended (nth a vecs (0%nat, 0%nat, [])).

  Lemma len_lens : length lens = P.
  Proof. unfold nevis, world_c. rewrite map_length, seq_length. reflexivity. Qed.
  Lemma nth_lens : forall r, (r < P)%nat -> nth r lens 0%nat = length (zs r).
  Proof.
    intros r Hr. unfold nevis, world_c. rewrite (nth_indep _ 0%nat (length (zs 0%nat))) by (rewrite map_length, seq_length; lia).
    rewrite (map_nth (fun r => length (zs r))). rewrite seq_nth by lia. reflexivity.
  Qed.
  Lemma displs_at : forall r, (r < P)%nat -> nth r (displs K parts zs) 0%nat = dis r.
  Proof. intros r Hr. unfold displs. rewrite prefix_nth by (rewrite len_lens; exact Hr). reflexivity. Qed.
  Lemma vec_at : forall r o s j, nth_error parts r = Some (o, s) -> (j < length (zs r))%nat ->
    vec (dis r + j) = extended (o, s, nth j (zs r) []).
  Proof.
    intros r o s j E Hj. assert (Hr : (r < P)%nat) by (apply nth_error_Some; congruence). unfold vec. f_equal. unfold all_vectors.
    set (ls := map (fun r => map (fun z => (nth r parts (0%nat, 0%nat), z)) (zs r)) (seq 0 P)).
    assert (EL : map (@length _) ls = lens).
    { unfold ls, nevis, world_c. rewrite map_map. apply map_ext. intros a. apply map_length. }
    rewrite <- EL. assert (El : nth r ls [] = map (fun z => (nth r parts (0%nat, 0%nat), z)) (zs r)).
    { unfold ls. set (g := fun r => map (fun z => (nth r parts (0%nat, 0%nat), z)) (zs r)). rewrite (nth_indep _ [] (g 0%nat)) by (rewrite map_length, seq_length; lia).
      rewrite (map_nth g). rewrite seq_nth by lia. reflexivity. }
    rewrite concat_nth; [|unfold ls; rewrite map_length, seq_length; exact Hr|rewrite El, map_length; exact Hj]. rewrite El.
    rewrite (nth_indep _ _ (nth r parts (0%nat, 0%nat), [])) by (rewrite map_length; exact Hj).
    rewrite (map_nth (fun z => (nth r parts (0%nat, 0%nat), z))). f_equal. rewrite (nth_error_nth _ _ _ E). reflexivity.
  Qed.
  Lemma parts_at : forall r, (r < P)%nat -> exists o s, nth_error parts r = Some (o, s) /\ off_of parts r = o /\ n_inside parts r = s.
  Proof.
    intros r Hr. destruct (nth_error parts r) as [[o s]|] eqn:E; [|apply nth_error_None in E; lia]. exists o, s. unfold off_of, n_inside. rewrite E. auto.
  Qed.

  Lemma evi_ok : forall r o s, nth_error parts r = Some (o, s) ->
    exists e, build_evi K parts n zs r = Some e /\ length e = (length (zs r) * n r)%nat /\
      forall j k, (j < length (zs r))%nat -> (k < s)%nat -> get e (j * n r + k) = get (nth j (zs r) []) k.
  Proof.
    intros r o s E. destruct (Hn r o s E) as [H1 H2]. unfold build_evi. assert (En : n_inside parts r = s) by (unfold n_inside; rewrite E; reflexivity). rewrite En.
    destruct (loop_ok K nat (fun i b => put K b (nth i (zs r) []) (i * n r) s) (fun i p => (i * n r <=? p) && (p <? i * n r + s))%nat
      (fun p => get (nth (p / n r) (zs r) []) (p mod n r)) (seq 0 (length (zs r))) (repeat 0 (length (zs r) * n r))) as (e & E1 & E2 & E3 & _).
    - intros i b Hi Hb _. apply in_seq in Hi. rewrite repeat_length in Hb |- *.
      destruct (put_ok K b (nth i (zs r) []) (i * n r) s) as (b' & F1 & F2 & F3); [apply H2, nth_In; lia|nia|].
      exists b'. split; [exact F1|]. split; [lia|]. intros p. rewrite F3. destruct (Nat.leb_spec (i * n r) p); cbn [andb]; [|reflexivity].
      destruct (Nat.ltb_spec p (i * n r + s)); [|reflexivity].
      assert (D : (p / n r)%nat = i) by (symmetry; apply (Nat.div_unique p (n r) i (p - i * n r)); lia).
      assert (M : (p mod n r)%nat = (p - i * n r)%nat) by (symmetry; apply (Nat.mod_unique p (n r) i (p - i * n r)); lia). rewrite D, M. reflexivity.
    - exists e. split; [exact E1|]. split; [rewrite E2, repeat_length; reflexivity|]. intros j k Hj Hk.
      rewrite (E3 j); [|apply in_seq; lia|apply andb_true_iff; split; [apply Nat.leb_le|apply Nat.ltb_lt]; lia].
      rewrite <- (Nat.div_unique (j * n r + k) (n r) j k) by lia. rewrite <- (Nat.mod_unique (j * n r + k) (n r) j k) by lia. reflexivity.
  Qed.
  Lemma pack_ok : forall i o s e, nth_error parts i = Some (o, s) -> length e = (length (zs i) * n i)%nat ->
    (forall j k, (j < length (zs i))%nat -> (k < s)%nat -> get e (j * n i + k) = get (nth j (zs i) []) k) ->
    exists b, pack_evi K parts n zs i e = Some b /\ length b = (s * length (zs i))%nat /\
      forall j k, (j < length (zs i))%nat -> (k < s)%nat -> get b (k * length (zs i) + j) = get (nth j (zs i) []) k.
  Proof.
    intros i o s e E Le Ve. assert (Hr : (i < P)%nat) by (apply nth_error_Some; congruence). destruct (Hn i o s E) as [H1 H2].
    unfold pack_evi. rewrite nth_lens by exact Hr. assert (En : n_inside parts i = s) by (unfold n_inside; rewrite E; reflexivity). rewrite En.
    set (mu := length (zs i)) in *.
    destruct (transpose_ok K (fun j k b' => mov K e (j * n i + k) (mu * k + j) b') (fun j k => (mu * k + j)%nat) (fun j k => get (nth j (zs i) []) k) mu s (repeat 0 (s * mu))) as (b & E1 & E2 & E3 & _).
    - intros j k j' k' Hj Hk Hj' Hk' Q. destruct (rows_inj mu j k j' k' Hj Hj'); [lia|]. auto.
    - intros j k b Hj Hk Hb _. rewrite repeat_length in Hb |- *. destruct (mov_ok K e (j * n i + k) (mu * k + j) b) as (d & D1 & D2 & D3); [nia|nia|].
      exists d. split; [exact D1|]. split; [lia|]. intros p. rewrite D3, Ve by assumption. reflexivity.
    - exists b. split; [exact E1|]. split; [rewrite E2, repeat_length; reflexivity|]. intros j k Hj Hk. rewrite <- (E3 j k Hj Hk). f_equal. lia.
  Qed.

  (** the form on two vectors of two processes *)
  Lemma form_parts : forall o s oi si z w, (o + s <= N)%nat -> (oi + si <= N)%nat ->
    form N A (extended (o, s, z)) (fun q => cj (extended (oi, si, w) q)) =
    sum s (fun k => get z k * sum si (fun l => A (o + k)%nat (oi + l)%nat * cj (get w l))).
  Proof.
    intros o s oi si z w H1 H2. unfold form.
    rewrite (sum_ext K N _ (fun p => if ((o <=? p) && (p <? o + s))%nat then get z (p - o) * sum si (fun l => A p (oi + l)%nat * cj (get w l)) else 0)).
    - rewrite (sum_window K N o s) by exact H1. apply sum_ext. intros k Hk. replace (o + k - o)%nat with k by lia. reflexivity.
    - intros p Hp. cbn [extended]. destruct ((o <=? p) && (p <? o + s))%nat.
      + rewrite <- sum_mul_l.
        rewrite (sum_ext K N _ (fun q => if ((oi <=? q) && (q <? oi + si))%nat then get z (p - o) * (A p q * cj (get w (q - oi))) else 0)).
        * rewrite (sum_window K N oi si) by exact H2. apply sum_ext. intros l Hl. replace (oi + l - oi)%nat with l by lia. reflexivity.
        * intros q Hq. destruct ((oi <=? q) && (q <? oi + si))%nat; [ring|]. unfold cj. destruct sym; rewrite ?conj_0; ring.
      + apply sum_0. intros q Hq. ring.
  Qed.

  Definition entry (a b : nat) : C := form N A (vec b) (fun q => cj (vec a q)).

  Lemma inner_ok : forall len x y, (len <= length x)%nat -> (len <= length y)%nat -> inner K len x y = Some (sum len (fun k => get x k * get y k)).
  Proof. intros len x y H1 H2. unfold inner. destruct (Nat.leb_spec len (length x)); [|lia]. destruct (Nat.leb_spec len (length y)); [|lia]. reflexivity. Qed.

  (** State on process r after the roots 0..i-1. *)
  Definition e_inv (r i : nat) (st : buf * buf) : Prop :=
    length (fst st) = (SE * SE)%nat /\ (nevi_max K parts zs * n_inside parts r <= length (snd st))%nat /\
    forall a b, (a < SE)%nat -> (b < SE)%nat ->
      get (fst st) (a + b * SE) = if ((a <? dis i) && ((dis r <=? b) && (b <? dis r + length (zs r))))%nat then entry a b else 0.

  Lemma one_ok : forall r evi, (r < P)%nat -> build_evi K parts n zs r = Some evi -> forall i st, (i < P)%nat -> e_inv r i st ->
    exists st', (do evi_i <- build_evi K parts n zs i; do bcast <- pack_evi K parts n zs i evi_i; one_root K parts sym n zs subs r evi i bcast st) = Some st' /\ e_inv r (S i) st'.
  Proof.
    intros r evi Hr He i [E AZ] Hi (LE & LA & VE). cbn [fst snd] in *.
    destruct (parts_at r Hr) as (o & s & Er & Eo & Es). destruct (parts_at i Hi) as (oi & si & Ei & Eoi & Esi).
    destruct (evi_ok r o s Er) as (ev & Q1 & Lev & Vev). rewrite He in Q1. injection Q1 as <-.
    destruct (evi_ok i oi si Ei) as (ei & Q1 & Lei & Vei). rewrite Q1.
    destruct (pack_ok i oi si ei Ei Lei Vei) as (bc & -> & Lbc & Vbc).
    destruct (Hn r o s Er) as [Hnr Hzr]. destruct (tiles_bound _ _ _ _ _ _ HT Er) as [_ B1]. destruct (tiles_bound _ _ _ _ _ _ HT Ei) as [_ B2].
    unfold one_root. rewrite nth_lens by exact Hi. rewrite !displs_at by assumption. rewrite Es, Eoi, Esi in *.
    pose proof (prefix_S lens i ltac:(rewrite len_lens; exact Hi)) as PS. rewrite nth_lens in PS by exact Hi.
    set (mu := length (zs i)) in *.
    destruct (Nat.eqb_spec mu 0) as [Z|Z].
    { exists (E, AZ). split; [reflexivity|]. split; [exact LE|]. cbn [fst snd]. split; [rewrite Es; exact LA|]. intros a b Ha Hb. rewrite VE by assumption. replace (dis (S i)) with (dis i) by lia. reflexivity. }
    assert (Hmx : (mu <= nevi_max K parts zs)%nat) by (unfold nevi_max, mu; rewrite <- (nth_lens i Hi); apply max_nth).
    cbn [fst snd]. destruct (fill0_ok K (mu * s) AZ) as (az0 & -> & [La0 _] & Va0); [nia|].
    assert (HB : exists b, (match sym with SyH => conj_buf K (length bc) bc | _ => Some bc end) = Some b /\ length b = length bc /\
      forall j k, (j < mu)%nat -> (k < si)%nat -> get b (k * mu + j) = cj (get (nth j (zs i) []) k)).
    { assert (G : exists b, Some bc = Some b /\ length b = length bc /\ forall j k, (j < mu)%nat -> (k < si)%nat -> get b (k * mu + j) = get (nth j (zs i) []) k) by (exists bc; split; [reflexivity|split; [reflexivity|exact Vbc]]).
      unfold cj. destruct sym; try exact G. destruct (conj_buf_ok K (length bc) bc (le_n _)) as (b & F1 & [F2 _] & F3). exists b. split; [exact F1|]. split; [exact F2|].
      intros j k Hj Hk. rewrite F3 by nia. rewrite Vbc by assumption. reflexivity. }
    destruct HB as (b & -> & Lb & Vb).
    destruct (HS r o s i oi si mu b az0 Er Ei ltac:(lia) ltac:(lia) ltac:(nia)) as (az & -> & Laz & Vaz).
    { intros p Hp. apply Va0. lia. }
    pose proof (prefix_S lens r ltac:(rewrite len_lens; exact Hr)) as PR. rewrite nth_lens in PR by exact Hr.
    pose proof (prefix_le lens (S r)) as LR. pose proof (prefix_le lens (S i)) as LI. fold SE in LR, LI. change (fold_right Nat.add 0%nat lens) with SE in LR, LI.
    set (m := length (zs r)) in *.
    set (val := fun j jj => entry (dis i + j) (dis r + jj)).
    destruct (transpose_ok K (fun j jj e' =>
        do v <- fold_opt K (fun k v => mov K az (j + mu * k) k v) (seq 0 s) (repeat 0 (n r));
        do x <- ptr K evi (jj * n r); do c <- inner K s x v; set1 K (dis i + j + (dis r + jj) * SE) c e')
      (fun j jj => (dis i + j + (dis r + jj) * SE)%nat) val mu m E) as (E' & F1 & F2 & F3 & F4).
    - intros j jj j' jj' H1 H2 H3 H4 Q. destruct (rows_inj SE (dis i + j) (dis r + jj) (dis i + j') (dis r + jj')); [lia|lia|exact Q|]. split; lia.
    - intros j jj b0 Hj Hjj Hb0 _.
      destruct (loop_ok K nat (fun k v => mov K az (j + mu * k) k v) (fun k p => (p =? k)%nat) (fun p => get az (p * mu + j)) (seq 0 s) (repeat 0 (n r))) as (v & G1 & G2 & G3 & _).
      { intros k v Hk Hv _. apply in_seq in Hk. rewrite repeat_length in Hv |- *. destruct (mov_ok K az (j + mu * k) k v) as (d & D1 & D2 & D3); [nia|lia|].
        exists d. split; [exact D1|]. split; [lia|]. intros p. rewrite D3. destruct (Nat.eqb_spec p k) as [->|]; [f_equal; lia|reflexivity]. }
      rewrite repeat_length in G2. rewrite G1.
      assert (Lp : (jj * n r + s <= length evi)%nat) by nia.
      unfold ptr. destruct (Nat.leb_spec (jj * n r) (length evi)); [|lia].
      rewrite inner_ok by (rewrite ?skipn_length; lia).
      destruct (set1_ok K (dis i + j + (dis r + jj) * SE) (sum s (fun k => get (skipn (jj * n r) evi) k * get v k)) b0) as (b1 & S1 & S2 & S3).
      { rewrite Hb0, LE. assert ((dis r + jj) * SE + SE <= SE * SE)%nat by nia. lia. }
      exists b1. split; [exact S1|]. split; [lia|]. intros p. rewrite S3. destruct (p =? _)%nat; [|reflexivity].
      unfold val, entry. rewrite (vec_at r o s jj Er Hjj), (vec_at i oi si j Ei Hj). rewrite form_parts by assumption.
      apply sum_ext. intros k Hk. rewrite get_skipn, Vev by assumption. f_equal. rewrite (G3 k k); [|apply in_seq; lia|apply Nat.eqb_refl].
      rewrite Vaz by assumption. apply sum_ext. intros l Hl. rewrite Vb by assumption. reflexivity.
    - assert (EQ : fold_opt K (fun j e =>
          do v <- fold_opt K (fun k v => mov K az (j + mu * k) k v) (seq 0 s) (repeat 0 (n r));
          fold_opt K (fun jj e' => do x <- ptr K evi (jj * n r); do c <- inner K s x v; set1 K (dis i + j + (dis r + jj) * SE) c e') (seq 0 m) e) (seq 0 mu) E = Some E').
      { rewrite <- F1. apply fold_ext. intros j e Hj. apply in_seq in Hj.
        destruct (loop_ok K nat (fun k v => mov K az (j + mu * k) k v) (fun k p => (p =? k)%nat) (fun p => get az (p * mu + j)) (seq 0 s) (repeat 0 (n r))) as (v & G1 & _).
        { intros k v Hk Hv _. apply in_seq in Hk. rewrite repeat_length in Hv |- *. destruct (mov_ok K az (j + mu * k) k v) as (d & D1 & D2 & D3); [nia|lia|].
          exists d. split; [exact D1|]. split; [lia|]. intros p. rewrite D3. destruct (Nat.eqb_spec p k) as [->|]; [f_equal; lia|reflexivity]. }
        rewrite G1. reflexivity. }
      rewrite EQ. exists (E', az). split; [reflexivity|]. split; [cbn [fst]; lia|]. cbn [fst snd]. split; [rewrite Es; lia|].
      intros a b' Ha Hb'. fold m. destruct (Nat.ltb_spec a (dis i)) as [L1|L1].
      + rewrite F4; [rewrite VE by assumption|].
        * destruct (Nat.ltb_spec a (dis i)); [|lia]. destruct (Nat.ltb_spec a (dis (S i))); [|lia]. reflexivity.
        * intros j jj Hj Hjj Q. destruct (rows_inj SE a b' (dis i + j) (dis r + jj)); lia.
      + destruct (Nat.ltb_spec a (dis (S i))) as [L2|L2]; cbn [andb].
        * destruct (Nat.leb_spec (dis r) b') as [L3|L3]; cbn [andb].
          -- destruct (Nat.ltb_spec b' (dis r + m)) as [L4|L4].
             ++ specialize (F3 (a - dis i)%nat (b' - dis r)%nat ltac:(lia) ltac:(lia)). unfold val in F3.
                replace (dis i + (a - dis i))%nat with a in F3 by lia. replace (dis r + (b' - dis r))%nat with b' in F3 by lia. exact F3.
             ++ rewrite F4; [rewrite VE by assumption; destruct (Nat.ltb_spec a (dis i)); [lia|reflexivity]|]. intros j jj Hj Hjj Q. destruct (rows_inj SE a b' (dis i + j) (dis r + jj)); lia.
          -- rewrite F4; [rewrite VE by assumption; destruct (Nat.ltb_spec a (dis i)); [lia|reflexivity]|]. intros j jj Hj Hjj Q. destruct (rows_inj SE a b' (dis i + j) (dis r + jj)); lia.
        * rewrite F4; [rewrite VE by assumption; destruct (Nat.ltb_spec a (dis i)); [lia|reflexivity]|]. intros j jj Hj Hjj Q. destruct (rows_inj SE a b' (dis i + j) (dis r + jj)); lia.
  Qed.

  Lemma local_E_ok : forall r, (r < P)%nat -> exists e, local_E K parts sym n zs subs r = Some e /\
    length e = (SE * SE)%nat /\ forall a b, (a < SE)%nat -> (b < SE)%nat ->
      get e (a + b * SE) = if ((dis r <=? b) && (b <? dis r + length (zs r)))%nat then entry a b else 0.
  Proof.
    intros r Hr. destruct (parts_at r Hr) as (o & s & Er & Eo & Es). unfold local_E. destruct (evi_ok r o s Er) as (ev & Q1 & _ & _). rewrite Q1.
    destruct (foldM_inv (buf * buf) (fun i st => do evi_i <- build_evi K parts n zs i; do bcast <- pack_evi K parts n zs i evi_i; one_root K parts sym n zs subs r ev i bcast st)
      (e_inv r) P (repeat 0 (SE * SE), repeat 0 (nevi_max K parts zs * n_inside parts r))) as ([E AZ] & F1 & (F2 & F3 & F4)).
    - split; [apply repeat_length|]. split; [cbn [snd]; rewrite repeat_length; lia|]. intros a b Ha Hb. cbn [fst firstn fold_right]. rewrite get_repeat. destruct (Nat.ltb_spec a 0); [lia|reflexivity].
    - intros i st Hi HI. exact (one_ok r ev Hr Q1 i st Hi HI).
    - unfold world_c. rewrite F1. exists E. split; [reflexivity|]. cbn [fst] in *. split; [exact F2|]. intros a b Ha Hb. rewrite F4 by assumption.
      rewrite (firstn_all2 lens) by (rewrite len_lens; lia). destruct (Nat.ltb_spec a (fold_right Nat.add 0%nat lens)) as [L|L]; [reflexivity|]. exfalso. apply (Nat.lt_irrefl a). apply (Nat.lt_le_trans _ _ _ Ha). exact L.
  Qed.

  Lemma coarse_ok : exists E, coarse_operator K parts sym n zs subs = Some E /\ mr E = length vecs /\ mc E = length vecs /\ length (md E) = (length vecs * length vecs)%nat /\
    forall a b, (a < length vecs)%nat -> (b < length vecs)%nat -> me E a b = entry a b.
  Proof.
    assert (ES : length vecs = SE).
    { unfold all_vectors. rewrite concat_len. unfold size_E, nevis, world_c. rewrite map_map. f_equal. apply map_ext. intros r. apply map_length. }
    rewrite ES. unfold coarse_operator.
    destruct (on_ranks_ok buf [] P (local_E K parts sym n zs subs) (fun r e => length e = (SE * SE)%nat /\ forall a b, (a < SE)%nat -> (b < SE)%nat ->
      get e (a + b * SE) = if ((dis r <=? b) && (b <? dis r + length (zs r)))%nat then entry a b else 0) local_E_ok) as (es & E1 & E2 & E3).
    unfold world_c. rewrite E1. eexists. split; [reflexivity|]. cbn [mr mc]. split; [reflexivity|]. split; [reflexivity|]. split; [cbn [md]; apply length_mk|].
    intros a b Ha Hb. unfold me. cbn [md mr mkMat]. rewrite get_mk. destruct (Nat.ltb_spec (a + b * SE) (SE * SE)); [|nia].
    destruct (flat_find lens b Hb) as (r & j & Hr & Hj & Eb). rewrite len_lens in Hr. rewrite nth_lens in Hj by exact Hr.
    assert (EL : lsum es (fun e => get e (a + b * SE)) = sum P (fun q => get (nth q es []) (a + b * SE))).
    { rewrite sum_lsum. rewrite <- E2. rewrite <- (lsum_map K _ _ (fun q => nth q es []) (seq 0 (length es)) (fun e => get e (a + b * SE))). f_equal.
      clear. induction es as [|e es IH]; [reflexivity|]. cbn [length seq map nth]. f_equal. rewrite <- seq_shift, map_map. exact IH. }
    rewrite EL. rewrite (sum_single K P r); [|exact Hr|].
    - destruct (E3 r Hr) as [_ V]. rewrite V by assumption. destruct (Nat.leb_spec (dis r) b); [|lia]. destruct (Nat.ltb_spec b (dis r + length (zs r))); [|lia]. reflexivity.
    - intros q Hq Nq. destruct (E3 q Hq) as [_ V]. rewrite V by assumption.
      pose proof (prefix_S lens q ltac:(rewrite len_lens; exact Hq)) as PS. rewrite nth_lens in PS by exact Hq.
      pose proof (prefix_S lens r ltac:(rewrite len_lens; exact Hr)) as PR. rewrite nth_lens in PR by exact Hr.
      destruct (lt_dec q r) as [L|L].
      + pose proof (prefix_mono lens (S q) r ltac:(lia)). destruct (Nat.ltb_spec b (dis q + length (zs q))); [lia|]. rewrite andb_false_r. reflexivity.
      + pose proof (prefix_mono lens (S r) q ltac:(lia)). destruct (Nat.leb_spec (dis q) b); [lia|]. reflexivity.
  Qed.
End C.

(** ** The local operators of a process: one hierarchical matrix with all the columns *)
Section HS.
  Variable K : Coef.
  Notation C := (car K).
  Notation buf := (list C).
  Notation "0" := (c0 K).
  Notation "1" := (c1 K).
  Notation "x + y" := (cadd K x y).
  Notation "x * y" := (cmul K x y).
  Add Ring Kring21 : (c_ring K).

  Definition hmat_subs (parts : list (nat * nat)) (N : nat) (sy : symc) (ps : list (process K)) (r : nat)
    : list (buf -> buf -> nat -> nat -> nat -> option buf) :=
    match nth_error (combine parts ps) r with
    | Some (os, p) => [fun x y mu off size => lo_sub K (local_hmatrix K (pr_threads K p) (pr_hmat K p) os (0%nat, N) sy) x y mu off size]
    | None => []
    end.

  Lemma hmat_subs_ok : forall tp sp sy ps A, compat K TrN sy -> tiles 0 (pa_n sp) (pa_parts tp) ->
    Forall2 (holds_part K sp sy A) (pa_parts tp) ps -> sub_products (pa_parts tp) A (hmat_subs (pa_parts tp) (pa_n sp) sy ps).
  Proof.
    intros tp sp sy ps A Hsy HT HP r o s i oi si mu x y Er Ei Hmu Hx Hy Hz.
    assert (G : exists p, nth_error (combine (pa_parts tp) ps) r = Some ((o, s), p) /\ holds_part K sp sy A (o, s) p).
    { clear - HP Er. revert r Er. induction HP as [|a p l1 l2 Ha HP IH]; intros r E; [destruct r; discriminate|]. destruct r as [|r]; [injection E as ->; exists p; auto|]. exact (IH r E). }
    destruct G as (p & Ep & (L & Y & W & P1 & P2 & E1 & E2 & V)). unfold hmat_subs. rewrite Ep.
    destruct (tiles_bound _ _ _ _ _ _ HT Ei) as [_ B2]. set (N := pa_n sp) in *.
    destruct (iv_parts _ _ E1) as [O1 S1]. destruct (iv_parts _ _ E2) as [O2 S2]. cbn [fst snd] in *.
    assert (Q : forall x', (N * mu <= length x')%nat -> exists y', omp_mat K (pr_threads K p) TrN 1 (pr_hmat K p) x' 0 y mu = Some y' /\ length y' = length y /\
      forall k c, (k < s)%nat -> (c < mu)%nat -> get y' (k * mu + c) = sum N (fun l => A (o + k)%nat l * get x' (l * mu + c))).
    { intros x' Hx'. destruct (omp_mat_ok K (pr_hmat K p) L Y sy _ (value_holds K _ _ _ _ W) TrN Hsy (pr_threads K p) mu 1 0 x' y Hmu P1 P2) as (y' & F1 & F2 & F3 & _);
        [unfold in_cl; cbn [is_N]; rewrite S2; exact Hx'|unfold out_cl; cbn [is_N]; rewrite S1; exact Hy|].
      cbn [is_N op_fun] in *. exists y'. split; [exact F1|]. split; [exact F2|]. intros k c Hk Hc. rewrite F3 by lia. rewrite S2, O1, O2. cbn [Nat.add].
      rewrite (sum_ext K N _ (fun l => A (o + k)%nat l * get x' (l * mu + c))); [ring|]. intros l Hl. f_equal. apply V; [|exact Hl].
      unfold in_iv. cbn [fst snd]. apply andb_true_iff. split; [apply Nat.leb_le|apply Nat.ltb_lt]; lia. }
    cbn [fold_opt]. unfold lo_sub. cbn [lo_s local_hmatrix fst snd lo_mat]. rewrite !Nat.add_0_r. cbn [Nat.add].
    destruct (Nat.ltb_spec (oi + si) 0); [lia|]. destruct (Nat.ltb_spec N oi); [lia|]. cbn [orb].
    assert (R : exists y', (do temp_in <- (if (oi <? 0)%nat then ptr K x (0 - oi) else Some x);
        do temp <- put K (repeat 0 (N * mu)) temp_in (Nat.max oi 0 * mu) ((if (si + oi <=? N)%nat then (si - (0 - oi))%nat else (si - (0 - oi) - (si + oi - 0 - N))%nat) * mu);
        lo_add_mat K (local_hmatrix K (pr_threads K p) (pr_hmat K p) (o, s) (0%nat, N) sy) 1 temp 0 y mu) = Some y' /\ length y' = length y /\
      forall k c, (k < s)%nat -> (c < mu)%nat -> get y' (k * mu + c) = sum si (fun l => A (o + k)%nat (oi + l)%nat * get x (l * mu + c))).
    { destruct (Nat.ltb_spec oi 0); [lia|]. destruct (Nat.leb_spec (si + oi) N); [|lia]. rewrite Nat.max_0_r. replace (si - (0 - oi))%nat with si by lia.
      destruct (put_ok K (repeat 0 (N * mu)) x (oi * mu) (si * mu)) as (tmp & T1 & T2 & T3); [exact Hx|rewrite repeat_length; nia|]. rewrite repeat_length in T2.
      rewrite T1. destruct (Q tmp) as (y' & F1 & F2 & F3); [lia|]. exists y'. split.
      - unfold lo_add_mat. cbn [lo_suse lo_tuse lo_s lo_t local_hmatrix fst snd lo_sym lo_mat lo_mats]. unfold ptr. cbn [Nat.mul Nat.leb skipn].
        unfold lo_dispatch. cbn [lo_sym local_hmatrix]. destruct sy; try rewrite F1; try reflexivity; [|destruct Hsy].
        unfold copy_n. rewrite length_vec0, T2, !Nat.leb_refl. cbn [andb]. rewrite skipn_all2 by (rewrite length_vec0; lia). rewrite app_nil_r, firstn_all2 by lia. rewrite F1. reflexivity.
      - split; [exact F2|]. intros k c Hk Hc. rewrite F3 by assumption.
        rewrite (sum_ext K N _ (fun l => if ((oi <=? l) && (l <? oi + si))%nat then A (o + k)%nat l * get x ((l - oi) * mu + c) else 0)).
        + rewrite (sum_window K N oi si) by exact B2. apply sum_ext. intros l Hl. replace (oi + l - oi)%nat with l by lia. reflexivity.
        + intros l Hl. rewrite T3, get_repeat. destruct (Nat.leb_spec oi l) as [L1|L1]; cbn [andb].
          * destruct (Nat.ltb_spec l (oi + si)) as [L2|L2].
            -- destruct (Nat.leb_spec (oi * mu) (l * mu + c)); [|nia]. destruct (Nat.ltb_spec (l * mu + c) (oi * mu + si * mu)); [|nia]. cbn [andb]. f_equal. f_equal. nia.
            -- destruct (Nat.ltb_spec (l * mu + c) (oi * mu + si * mu)); [nia|]. rewrite andb_false_r. ring.
          * destruct (Nat.leb_spec (oi * mu) (l * mu + c)); [nia|]. cbn [andb]. ring. }
    destruct (Nat.eqb_spec 0 oi) as [Z|Z].
    - cbn [andb]. destruct (Nat.eqb_spec N (si + oi)) as [Z2|Z2].
      + destruct (Q x) as (y' & F1 & F2 & F3); [replace N with si by lia; exact Hx|]. rewrite F1. exists y'. split; [reflexivity|]. split; [exact F2|].
        intros k c Hk Hc. rewrite F3 by assumption. replace si with N by lia. rewrite <- Z. reflexivity.
      + destruct R as (y' & R1 & R2). rewrite R1. exists y'. split; [reflexivity|exact R2].
    - cbn [andb]. destruct R as (y' & R1 & R2). rewrite R1. exists y'. split; [reflexivity|exact R2].
  Qed.
End HS.
