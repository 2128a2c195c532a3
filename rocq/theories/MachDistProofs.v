(** * Lemmas for MachDistModel.v. *)

From Coq Require Import List Arith ZArith Bool Lia Permutation.
From Verif Require Import ClusterModel ClusterSpec IOModel BlockModel Algebra BlasModel HMatModel DistModel DistSpec DistProofs ProcLink MachModel MachDistModel MachDistSpec.
Import ListNotations.

Lemma fits_le : forall a b, a <= b -> fits b -> fits a.
Proof. unfold fits. intros. lia. Qed.
Lemma nm_ok : forall a b, fits (a * b) -> nm a b = Some (a * b).
Proof.
  intros a b H. unfold fits in H. unfold nm, imul, int_ok. rewrite <- Nat2Z.inj_mul.
  replace (- 2 ^ 31 <=? Z.of_nat (a * b))%Z with true by (symmetry; apply Z.leb_le; lia).
  replace (Z.of_nat (a * b) <? 2 ^ 31)%Z with true by (symmetry; apply Z.ltb_lt; lia). cbn [andb]. rewrite Nat2Z.id. reflexivity.
Qed.
Lemma na_ok : forall a b, fits (a + b) -> na a b = Some (a + b).
Proof.
  intros a b H. unfold fits in H. unfold na, iadd, int_ok. rewrite <- Nat2Z.inj_add.
  replace (- 2 ^ 31 <=? Z.of_nat (a + b))%Z with true by (symmetry; apply Z.leb_le; lia).
  replace (Z.of_nat (a + b) <? 2 ^ 31)%Z with true by (symmetry; apply Z.ltb_lt; lia). cbn [andb]. rewrite Nat2Z.id. reflexivity.
Qed.
Lemma nm_none : forall a b, ~ fits (a * b) -> nm a b = None.
Proof.
  intros a b H. unfold fits in H. unfold nm, imul, int_ok. rewrite <- Nat2Z.inj_mul.
  replace (Z.of_nat (a * b) <? 2 ^ 31)%Z with false by (symmetry; apply Z.ltb_ge; lia). rewrite andb_false_r. reflexivity.
Qed.
Lemma nm_inv : forall a b c, nm a b = Some c -> c = a * b.
Proof.
  intros a b c H. unfold nm, imul in H. rewrite <- Nat2Z.inj_mul in H. destruct (int_ok (Z.of_nat (a * b))); [|discriminate].
  injection H as H. rewrite Nat2Z.id in H. congruence.
Qed.

Lemma all_some_ext : forall A B (f g : B -> option A) l, (forall b, In b l -> f b = g b) -> all_some (map f l) = all_some (map g l).
Proof. intros A B f g l H. f_equal. apply map_ext_in. exact H. Qed.
Lemma on_ranks_ext : forall A P (f g : nat -> option A), (forall r, r < P -> f r = g r) -> on_ranks P f = on_ranks P g.
Proof. intros A P f g H. unfold on_ranks. apply all_some_ext. intros b Hb. apply in_seq in Hb. apply H. lia. Qed.
Lemma foldM_ext : forall S A (f g : A -> S -> option S) l s, (forall a s, In a l -> f a s = g a s) -> foldM f l s = foldM g l s.
Proof.
  intros S A f g. induction l as [|a l IH]; intros s H; [reflexivity|]. cbn [foldM]. rewrite H by (left; reflexivity). destruct (g a s); [|reflexivity].
  apply IH. intros. apply H. right. assumption.
Qed.
Lemma foldM_none : forall S A (f : A -> S -> option S) l s a, In a l -> (forall s, f a s = None) -> foldM f l s = None.
Proof.
  intros S A f. induction l as [|a0 l IH]; intros s a Ha H; [destruct Ha|]. cbn [foldM]. destruct (f a0 s) eqn:E; [|reflexivity].
  destruct Ha as [->|Ha]; [rewrite H in E; discriminate|]. exact (IH _ a Ha H).
Qed.
Lemma on_ranks_none : forall A P (f : nat -> option A) r, r < P -> f r = None -> on_ranks P f = None.
Proof.
  intros A P f r Hr H. destruct (on_ranks P f) as [l|] eqn:E; [|reflexivity]. destruct (on_ranks_inv _ _ _ _ E) as [HL H2].
  destruct l as [|a l]; [cbn [length] in HL; lia|]. rewrite (H2 r a Hr) in H. discriminate.
Qed.

Section F.
  Variable K : Coef.
  Lemma fold_ext : forall A (f g : A -> list (car K) -> option (list (car K))) l b, (forall a b, In a l -> f a b = g a b) -> fold_opt K f l b = fold_opt K g l b.
  Proof.
    intros A f g. induction l as [|a l IH]; intros s H; [reflexivity|]. cbn [fold_opt]. rewrite H by (left; reflexivity). destruct (g a s); [|reflexivity].
    apply IH. intros. apply H. right. assumption.
  Qed.
  Lemma fold_none : forall A (f : A -> list (car K) -> option (list (car K))) l b a, In a l -> (forall b, f a b = None) -> fold_opt K f l b = None.
  Proof.
    intros A f. induction l as [|a0 l IH]; intros s a Ha H; [destruct Ha|]. cbn [fold_opt]. destruct (f a0 s) eqn:E; [|reflexivity].
    destruct Ha as [->|Ha]; [rewrite H in E; discriminate|]. exact (IH _ a Ha H).
  Qed.
  Lemma fold_seq : forall (f g : nat -> list (car K) -> option (list (car K))) n b, (forall a b, a < n -> f a b = g a b) -> fold_opt K f (seq 0 n) b = fold_opt K g (seq 0 n) b.
  Proof. intros f g n b H. apply fold_ext. intros a b' Ha. apply in_seq in Ha. apply H. lia. Qed.
  Lemma foldM_seq : forall S (f g : nat -> S -> option S) n s, (forall a s, a < n -> f a s = g a s) -> foldM f (seq 0 n) s = foldM g (seq 0 n) s.
  Proof. intros S f g n s H. apply foldM_ext. intros a b' Ha. apply in_seq in Ha. apply H. lia. Qed.
End F.

Lemma prefix_ok : forall l acc, fits (acc + list_sum l) -> prefix_sums_m acc l = Some (prefix_sums acc l).
Proof.
  induction l as [|a l IH]; intros acc H; [reflexivity|]. cbn [prefix_sums_m prefix_sums]. change (list_sum (a :: l)) with (a + list_sum l) in H. destruct l as [|a' l]; [reflexivity|].
  rewrite na_ok by (refine (fits_le _ _ _ H); lia). cbv beta iota. rewrite IH by (refine (fits_le _ _ _ H); lia). reflexivity.
Qed.
Lemma tiles_sum : forall l lo hi, tiles lo hi l -> lo + list_sum (map snd l) = hi.
Proof.
  induction l as [|[o s] l IH]; intros lo hi H; cbn [tiles] in H.
  - cbn. lia.
  - destruct H as [-> H]. apply IH in H. cbn [map snd]. change (list_sum (s :: map snd l)) with (s + list_sum (map snd l)). lia.
Qed.
Lemma sum_scale : forall (l : list (nat * nat)) mu, list_sum (map (fun os => snd os * mu) l) = list_sum (map snd l) * mu.
Proof.
  intros l mu. induction l as [|[o s] l IH]; [reflexivity|]. cbn [map snd].
  change (list_sum (s * mu :: map (fun os => snd os * mu) l)) with (s * mu + list_sum (map (fun os => snd os * mu) l)). rewrite IH.
  change (list_sum (s :: map snd l)) with (s + list_sum (map snd l)). lia.
Qed.

Section Part.
  Variables (p : partition) (P mu : nat).
  Hypothesis Hp : partition_ok p P.
  Hypothesis Hf : fits (pa_n p * mu).
  Lemma size_le : forall r s, part_size p r = Some s -> s <= pa_n p.
  Proof.
    intros r s H. unfold part_size in H. destruct (nth_error (pa_parts p) r) as [[o s']|] eqn:E; [|discriminate]. injection H as <-.
    pose proof (tiles_in _ _ _ _ _ _ (po_tiles _ _ Hp) E). cbn [snd]. lia.
  Qed.
  Lemma off_le : forall r o s, part_off p r = Some o -> part_size p r = Some s -> o + s <= pa_n p.
  Proof.
    intros r o s H H'. unfold part_size in H'. unfold part_off in H. destruct (nth_error (pa_parts p) r) as [[o' s']|] eqn:E; [|discriminate]. injection H as <-. injection H' as <-.
    pose proof (tiles_in _ _ _ _ _ _ (po_tiles _ _ Hp) E). cbn [snd fst]. lia.
  Qed.
  Lemma size_fits : forall r s, part_size p r = Some s -> fits (s * mu).
  Proof. intros r s H. apply (fits_le _ (pa_n p * mu)); [|exact Hf]. apply size_le in H. nia. Qed.
  Lemma counts_m : part_counts_m p P mu = part_counts p P mu.
  Proof.
    unfold part_counts_m, part_counts. apply on_ranks_ext. intros r Hr. destruct (part_size p r) as [s|] eqn:E; [|reflexivity]. apply nm_ok. exact (size_fits _ _ E).
  Qed.
  Lemma counts_sum : forall cs, part_counts p P mu = Some cs -> list_sum cs = pa_n p * mu.
  Proof.
    intros cs H. rewrite (part_counts_ok p P Hp) in H. injection H as <-. rewrite sum_scale. pose proof (tiles_sum _ _ _ (po_tiles _ _ Hp)). nia.
  Qed.
  Lemma prefix_m : forall cs, part_counts p P mu = Some cs -> prefix_sums_m 0 cs = Some (prefix_sums 0 cs).
  Proof. intros cs H. apply prefix_ok. rewrite (counts_sum cs H). exact Hf. Qed.
End Part.

(** Rewriting with the conditions on the sizes. *)
Ltac fit H := first [exact H | refine (fits_le _ _ _ H); nia].
Tactic Notation "mul_ok" constr(H) := rewrite nm_ok by (fit H); cbv beta iota.
Tactic Notation "add_ok" constr(H) := rewrite na_ok by (fit H); cbv beta iota.

Section Ops.
  Variable K : Coef.
  Variable D : dop K.
  Variable mu : nat.
  Notation nr := (DistModel.nr K D).
  Notation nc := (DistModel.nc K D).
  Notation world := (DistModel.world K D).
  Hypothesis Hmu : 1 <= mu.
  Hypothesis Ht : partition_ok (d_t K D) world.
  Hypothesis Hs : partition_ok (d_s K D) world.

  Lemma pack_m : forall perm n ld o (colm col : nat -> option (list (car K))) b,
    fits (n * mu) -> fits (ld * mu) -> (perm = false -> o + n <= ld) -> (forall i, i < mu -> colm (i * ld) = col i) ->
    pack_rows_m K perm mu n ld o colm b = pack_rows K mu n col b.
  Proof.
    intros perm n ld o colm col b H1 H2 H3 H4. unfold pack_rows_m, pack_rows. apply fold_seq. intros i b1 Hi.
    mul_ok H2. rewrite H4 by exact Hi. destruct (col i) as [c|]; [|reflexivity]. apply fold_seq. intros j b2 Hj.
    mul_ok H1. add_ok H1. destruct perm; [reflexivity|]. specialize (H3 eq_refl). rewrite na_ok by (apply (fits_le _ (ld * mu)); [nia|exact H2]). reflexivity.
  Qed.

  Section Target.
    Hypothesis Hr : fits (nr * mu).
    Lemma int_mat_m : forall r inp out, int_mat_g2l_m K D r inp out mu = int_mat_g2l K D r inp out mu.
    Proof.
      intros r inp out. unfold int_mat_g2l_m, int_mat_g2l. destruct (part_size (d_t K D) r) as [s|] eqn:E; [|reflexivity].
      rewrite nm_ok by exact (size_fits _ _ mu Ht Hr _ _ E). reflexivity.
    Qed.
  End Target.

  Section Global.
    Hypothesis H2r : fits (2 * nr * mu).
    Hypothesis Hc : fits (nc * mu).
    Notation Sq := (forall r s, r < world -> part_size (d_t K D) r = Some s -> fits ((mu - 1) * (s * mu))).
    Let Hr : fits (nr * mu). Proof. fit H2r. Qed.

    Lemma mat_g2g_eq : Sq -> forall ins outs, mat_g2g_m K D ins outs mu = mat_g2g K D ins outs mu.
    Proof.
      intros Hsq ins outs. unfold mat_g2g_m, mat_g2g.
      match goal with |- (match on_ranks _ ?f with _ => _ end) = (match on_ranks _ ?g with _ => _ end) => assert (E : on_ranks world f = on_ranks world g) end.
      { apply on_ranks_ext. intros r Hrk. destruct (part_size (d_t K D) r) as [s|] eqn:E; [|reflexivity].
        pose proof (size_le _ _ Ht _ _ E) as Hle. change (pa_n (d_t K D)) with nr in Hle. cbv beta iota.
        assert (F2 : fits (2 * s * mu)) by (apply (fits_le _ (2 * nr * mu)); [nia|exact H2r]).
        rewrite (nm_ok 2 s) by fit F2. cbv beta iota.
        rewrite (nm_ok (2 * s) mu) by exact F2. cbv beta iota. rewrite (nm_ok nc mu) by exact Hc. cbv beta iota.
          rewrite (pack_m _ nc nc 0 _ (fun i => do p <- ptr K (at_rank K ins r) (i * nc); if d_perm K D then to_part K (d_s K D) p (vec0 K nc) else Some p));
            [|exact Hc|exact Hc|lia|reflexivity].
          match goal with |- (match ?x with _ => _ end) = _ => destruct x as [input|]; [|reflexivity] end.
          rewrite (nm_ok s mu) by fit F2. cbv beta iota.
          assert (EW : forall f g : list (car K) -> option (list (car K)), (forall w, f w = g w) -> forall b o x, write_at K b o x f = write_at K b o x g).
          { intros f g Hfg b o x. unfold write_at. rewrite Hfg. reflexivity. }
          rewrite (EW _ (fun w => int_mat_g2l K D r input w mu) (fun w => int_mat_m Hr r input w)).
          match goal with |- (match ?x with _ => _ end) = _ => destruct x as [op|]; [|reflexivity] end.
          apply fold_seq. intros i b Hi. apply fold_seq. intros j b' Hj.
          rewrite (nm_ok i s) by fit F2. cbv beta iota. rewrite (na_ok (i * s) j) by fit F2. cbv beta iota.
          rewrite (na_ok (s * mu) i) by fit F2. cbv beta iota. rewrite (nm_ok j mu) by fit F2. cbv beta iota.
          rewrite (na_ok (s * mu + i) (j * mu)) by fit F2. reflexivity. }
      rewrite E. clear E. match goal with |- (match ?x with _ => _ end) = _ => destruct x as [locs|]; [|reflexivity] end.
      rewrite (counts_m _ _ mu Ht Hr). destruct (part_counts (d_t K D) world mu) as [cs|] eqn:Ecs; [|reflexivity].
      rewrite (prefix_m _ _ mu Ht Hr cs Ecs). cbv zeta.
      assert (Fsq : forall i j, i < mu -> j < world -> fits (i * nth j cs 0)).
      { intros i j Hi Hj. destruct (counts_own K D _ _ _ Ecs) as [_ Hcs]. destruct (Hcs j Hj) as (_ & s & Es & ->). apply (fits_le _ ((mu - 1) * (s * mu))); [apply Nat.mul_le_mono_r; lia|exact (Hsq j s Hj Es)]. }
      apply on_ranks_ext. intros r Hrk.
      replace (if d_perm K D then do n2 <- nm 2 nr; nm n2 mu else nm nr mu) with (Some (if d_perm K D then 2 * nr * mu else nr * mu)).
      2:{ destruct (d_perm K D); [|symmetry; apply nm_ok; exact Hr]. rewrite (nm_ok 2 nr) by fit H2r. symmetry. apply nm_ok. exact H2r. }
      cbv beta iota. match goal with |- (match ?x with _ => _ end) = _ => destruct x as [ob|]; [|reflexivity] end.
      destruct (d_perm K D).
      - match goal with |- (match ?x with _ => _ end) = (match ?y with _ => _ end) => replace x with y; [reflexivity|] end.
        apply foldM_seq. intros i bo Hi.
        match goal with |- (match ?x with _ => _ end) = (match ?y with _ => _ end) => replace y with x; [destruct x as [b1|]; [|reflexivity]|] end.
        + rewrite (nm_ok nr mu) by exact Hr. cbv beta iota. rewrite (nm_ok i nr) by fit Hr. reflexivity.
        + apply fold_seq. intros j b' Hj. rewrite (nm_ok i (nth j cs 0)) by (apply Fsq; assumption). cbv beta iota.
          match goal with |- (match ?x with _ => _ end) = _ => destruct x as [src|]; [|reflexivity] end.
          rewrite (nm_ok nr mu) by exact Hr. cbv beta iota. rewrite (nm_ok i nr) by fit Hr. reflexivity.
      - apply fold_seq. intros i b Hi. apply fold_seq. intros j b' Hj. rewrite (nm_ok i (nth j cs 0)) by (apply Fsq; assumption). cbv beta iota.
        match goal with |- (match ?x with _ => _ end) = _ => destruct x as [src|]; [|reflexivity] end.
        rewrite (nm_ok i nr) by fit Hr. reflexivity.
    Qed.

    Lemma int_tmat_eq : forall ins outs, int_tmat_l2g_m K D ins outs mu = int_tmat_l2g K D ins outs mu.
    Proof.
      intros ins outs. unfold int_tmat_l2g_m, int_tmat_l2g. rewrite (nm_ok nc mu) by exact Hc. reflexivity.
    Qed.
    Lemma tmat_g2g_eq : fits (nr * mu + nc * mu) -> (d_sym K D = SyS \/ d_sym K D = SyH -> Sq) -> forall ins outs, tmat_g2g_m K D ins outs mu = tmat_g2g K D ins outs mu.
    Proof.
      intros Hrc Hsq ins outs. unfold tmat_g2g_m, tmat_g2g.
      assert (G :
        (do inputs <- on_ranks world (fun r =>
            do s <- part_size (d_t K D) r;
            do o <- part_off (d_t K D) r;
            do size_out <- nm mu nc;
            do sm <- nm s mu;
            do _ <- na sm size_out;
            do _ <- na o s;
            pack_rows_m K (d_perm K D) mu s nr o (fun k => do p <- ptr K (at_rank K ins r) k;
                                                         do b <- (if d_perm K D then to_part K (d_t K D) p (vec0 K nr) else Some p);
                                                         ptr K b o) (vec0 K sm));
          do outs0 <- on_ranks world (fun _ => do n <- nm mu nc; Some (vec0 K n));
          do os <- int_tmat_l2g_m K D inputs outs0 mu;
          on_ranks world (fun r =>
            do s <- part_size (d_t K D) r;
            let row := at_rank K os r in
            if d_perm K D then
              fold_opt K (fun i out =>
                do c <- fold_opt K (fun j c =>
                  do inc <- nm i nc; do _ <- na inc j;
                  do jm <- nm j mu; do p <- na i jm; do sm <- nm s mu; do _ <- na p sm;
                  mov K row p j c) (seq 0 nc) (vec0 K nc);
                do inc <- nm i nc;
                write_at K out inc 0 (fun w => to_user K (d_s K D) c w)) (seq 0 mu) (at_rank K outs r)
            else
              fold_opt K (fun i out => fold_opt K (fun j o =>
                do inc <- nm i nc; do q <- na inc j;
                do jm <- nm j mu; do p <- na i jm; do sm <- nm s mu; do _ <- na p sm;
                mov K row p q o) (seq 0 nc) out) (seq 0 mu) (at_rank K outs r)))
        =
        (do inputs <- on_ranks world (fun r =>
            do s <- part_size (d_t K D) r;
            do o <- part_off (d_t K D) r;
            pack_rows K mu s (fun i => do p <- ptr K (at_rank K ins r) (i * nr);
                                     do b <- (if d_perm K D then to_part K (d_t K D) p (vec0 K nr) else Some p);
                                     ptr K b o) (vec0 K (s * mu)));
          do os <- int_tmat_l2g K D inputs (map (fun _ => vec0 K (mu * nc)) (seq 0 world)) mu;
          on_ranks world (fun r =>
            let row := at_rank K os r in
            if d_perm K D then
              fold_opt K (fun i out =>
                do c <- fold_opt K (fun j c => mov K row (i + j * mu) j c) (seq 0 nc) (vec0 K nc);
                write_at K out (i * nc) 0 (fun w => to_user K (d_s K D) c w)) (seq 0 mu) (at_rank K outs r)
            else
              fold_opt K (fun i out => fold_opt K (fun j o => mov K row (i + j * mu) (i * nc + j) o) (seq 0 nc) out)
                (seq 0 mu) (at_rank K outs r)))).
      { match goal with |- (match on_ranks _ ?f with _ => _ end) = (match on_ranks _ ?g with _ => _ end) => assert (E : on_ranks world f = on_ranks world g) end.
        { apply on_ranks_ext. intros r Hrk. destruct (part_size (d_t K D) r) as [s|] eqn:E; [|reflexivity]. destruct (part_off (d_t K D) r) as [o|] eqn:E'; [|reflexivity].
          pose proof (off_le _ _ Ht _ _ _ E' E) as Hle. change (pa_n (d_t K D)) with nr in Hle. cbv beta iota.
          rewrite (nm_ok mu nc) by fit Hc. cbv beta iota. rewrite (nm_ok s mu) by fit Hr. cbv beta iota.
          rewrite (na_ok (s * mu) (mu * nc)) by fit Hrc. cbv beta iota. rewrite (na_ok o s) by fit Hr. cbv beta iota.
          apply pack_m; [fit Hr|exact Hr|lia|reflexivity]. }
        rewrite E. clear E. match goal with |- (match ?x with _ => _ end) = _ => destruct x as [inputs|]; [|reflexivity] end.
        rewrite (nm_ok mu nc) by fit Hc. cbv beta iota.
        replace (on_ranks world (fun _ => Some (vec0 K (mu * nc)))) with (Some (map (fun _ => vec0 K (mu * nc)) (seq 0 world))).
        2:{ pose proof (all_some_map _ (map (fun _ => vec0 K (mu * nc)) (seq 0 world))) as Em. rewrite map_map in Em. symmetry. exact Em. }
        rewrite int_tmat_eq. destruct (int_tmat_l2g K D inputs (map (fun _ : nat => vec0 K (mu * nc)) (seq 0 world)) mu) as [os|]; [|reflexivity].
        apply on_ranks_ext. intros r Hrk. destruct (part_nth _ _ Ht r Hrk) as (o & s & En & Hle). destruct (part_size_ok _ _ _ _ En) as [Es _]. rewrite Es. cbv zeta.
        change (pa_n (d_t K D)) with nr in Hle.
        destruct (d_perm K D).
        - apply fold_seq. intros i b Hi.
          match goal with |- (match ?x with _ => _ end) = (match ?y with _ => _ end) => replace x with y; [destruct y as [c|]; [|reflexivity]|symmetry] end.
          + rewrite (nm_ok i nc) by fit Hc. reflexivity.
          + apply fold_seq. intros j b' Hj.
            rewrite (nm_ok i nc) by fit Hc. cbv beta iota. rewrite (na_ok (i * nc) j) by fit Hc. cbv beta iota. rewrite (nm_ok j mu) by fit Hc. cbv beta iota.
            rewrite (na_ok i (j * mu)) by fit Hc. cbv beta iota. rewrite (nm_ok s mu) by fit Hr. cbv beta iota. rewrite (na_ok (i + j * mu) (s * mu)) by fit Hrc. reflexivity.
        - apply fold_seq. intros i b Hi. apply fold_seq. intros j b' Hj.
          rewrite (nm_ok i nc) by fit Hc. cbv beta iota. rewrite (na_ok (i * nc) j) by fit Hc. cbv beta iota. rewrite (nm_ok j mu) by fit Hc. cbv beta iota.
          rewrite (na_ok i (j * mu)) by fit Hc. cbv beta iota. rewrite (nm_ok s mu) by fit Hr. cbv beta iota. rewrite (na_ok (i + j * mu) (s * mu)) by fit Hrc. reflexivity. }
      destruct (d_sym K D); [exact G|exact (mat_g2g_eq (Hsq (or_introl eq_refl)) ins outs)| |exact G].
      rewrite (nm_ok nr mu) by exact Hr. cbv beta iota.
      match goal with |- (match ?x with _ => _ end) = _ => destruct x as [ic|]; [|reflexivity] end.
      rewrite (mat_g2g_eq (Hsq (or_intror eq_refl))). rewrite (nm_ok mu nc) by fit Hc. reflexivity.
    Qed.

    (** The converse for the square term. *)
    Lemma mat_g2g_none : forall ins outs j s, j < world -> part_size (d_t K D) j = Some s -> ~ fits ((mu - 1) * (s * mu)) -> mat_g2g_m K D ins outs mu = None.
    Proof.
      intros ins outs j s Hj Es Hbig. unfold mat_g2g_m.
      match goal with |- (match ?x with _ => _ end) = _ => destruct x as [locs|]; [|reflexivity] end.
      destruct (part_counts_m (d_t K D) world mu) as [cs|] eqn:Ecs; [|reflexivity].
      match goal with |- (match ?x with _ => _ end) = _ => destruct x as [ds|]; [|reflexivity] end.
      assert (Ecj : nth j cs 0 = s * mu).
      { destruct (on_ranks_inv _ _ _ _ Ecs) as [_ H2]. specialize (H2 j 0 Hj). rewrite Es in H2. apply nm_inv in H2. exact H2. }
      apply on_ranks_none with (r := j); [exact Hj|]. cbv beta.
      match goal with |- (match ?x with _ => _ end) = _ => destruct x as [so|]; [|reflexivity] end.
      match goal with |- (match ?x with _ => _ end) = _ => destruct x as [ob|]; [|reflexivity] end.
      assert (Hi : In (mu - 1) (seq 0 mu)) by (apply in_seq; lia). assert (Hj' : In j (seq 0 world)) by (apply in_seq; lia).
      destruct (d_perm K D).
      - match goal with |- (match ?x with _ => _ end) = _ => replace x with (@None (list (car K) * list (car K))); [reflexivity|symmetry] end.
        apply foldM_none with (a := mu - 1); [exact Hi|]. intros bo.
        match goal with |- (match ?x with _ => _ end) = _ => replace x with (@None (list (car K))); [reflexivity|symmetry] end.
        apply fold_none with (a := j); [exact Hj'|]. intros b. rewrite Ecj. rewrite nm_none by exact Hbig. reflexivity.
      - apply fold_none with (a := mu - 1); [exact Hi|]. intros bo. apply fold_none with (a := j); [exact Hj'|]. intros b. rewrite Ecj. rewrite nm_none by exact Hbig. reflexivity.
    Qed.
  End Global.

  Section Local.
    Hypothesis Hr : fits (nr * mu).
    Hypothesis Hc : fits (nc * mu).

    Lemma l2g_eq : forall ins outs, l2g_source_m K D ins outs mu = l2g_source K D ins outs mu.
    Proof.
      intros ins outs. unfold l2g_source_m, l2g_source. rewrite (counts_m _ _ mu Hs Hc). destruct (part_counts (d_s K D) world mu) as [cs|] eqn:E; [|reflexivity].
      rewrite (prefix_m _ _ mu Hs Hc cs E). reflexivity.
    Qed.
    Lemma int_mat_l2l_eq : forall ins outs works, int_mat_l2l_m K D ins outs works mu = int_mat_l2l K D ins outs works mu.
    Proof.
      intros ins outs works. unfold int_mat_l2l_m, int_mat_l2l. rewrite l2g_eq. destruct (l2g_source K D ins works mu) as [bs|]; [|reflexivity].
      apply on_ranks_ext. intros r _. apply int_mat_m. exact Hr.
    Qed.
    Lemma unpack_eq : forall p r s row out, fits (s * mu) -> unpack_rows_m K D p mu r s row out = unpack_rows K D p mu r s row out.
    Proof.
      intros p r s row out F. unfold unpack_rows_m, unpack_rows. destruct (d_perm K D).
      - apply fold_seq. intros i b Hi.
        match goal with |- (match ?x with _ => _ end) = (match ?y with _ => _ end) => replace x with y; [destruct y as [c|]; [|reflexivity]|symmetry] end.
        + rewrite (nm_ok i s) by fit F. reflexivity.
        + apply fold_seq. intros j b' Hj. rewrite (nm_ok j mu) by fit F. cbv beta iota. rewrite (na_ok i (j * mu)) by fit F. reflexivity.
      - apply fold_seq. intros i b Hi. apply fold_seq. intros j b' Hj. rewrite (nm_ok i s) by fit F. cbv beta iota. rewrite (na_ok j (i * s)) by fit F. cbv beta iota.
        rewrite (nm_ok j mu) by fit F. cbv beta iota. rewrite (na_ok i (j * mu)) by fit F. reflexivity.
    Qed.
    Lemma pack_local_eq : forall p r s inp, fits (s * mu) -> pack_local_m K D p mu r s inp = pack_local K D p mu r s inp.
    Proof.
      intros p r s inp F. unfold pack_local_m, pack_local. rewrite (nm_ok s mu) by exact F. cbv beta iota. apply pack_m; [exact F|exact F|lia|reflexivity].
    Qed.
    (** The work arrays in use. *)
    Definition works_used (works : option (list (list (car K)))) (size : nat -> nat) : list (list (car K)) :=
      match works with Some w => w | None => map (fun r => vec0 K (size r)) (seq 0 world) end.
    Lemma work_eq : forall works sm size, (forall r, r < world -> sm r = Some (size r)) -> work_m K D works sm = Some (works_used works size).
    Proof.
      intros [w|] sm size H; [reflexivity|]. cbn [work_m works_used]. rewrite (on_ranks_ext _ _ _ (fun r => Some (vec0 K (size r)))).
      - pose proof (all_some_map _ (map (fun r => vec0 K (size r)) (seq 0 world))) as Em. rewrite map_map in Em. exact Em.
      - intros r Hrk. rewrite H by exact Hrk. reflexivity.
    Qed.
    Lemma mat_l2l_eq : forall ins outs works,
      mat_l2l_m K D ins outs works mu = mat_l2l K D ins outs (works_used works (fun _ => nc * mu)) mu.
    Proof.
      intros ins outs works. unfold mat_l2l_m, mat_l2l. rewrite (work_eq works _ (fun _ => nc * mu)) by (intros; apply nm_ok; exact Hc). cbv beta iota.
      match goal with |- (match on_ranks _ ?f with _ => _ end) = (match on_ranks _ ?g with _ => _ end) => assert (E : on_ranks world f = on_ranks world g) end.
      { apply on_ranks_ext. intros r _. destruct (part_size (d_s K D) r) as [s|] eqn:E; [|reflexivity]. apply pack_local_eq. exact (size_fits _ _ mu Hs Hc _ _ E). }
      rewrite E. clear E. match goal with |- (match ?x with _ => _ end) = _ => destruct x as [ip|]; [|reflexivity] end.
      match goal with |- (match on_ranks _ ?f with _ => _ end) = (match on_ranks _ ?g with _ => _ end) => assert (E : on_ranks world f = on_ranks world g) end.
      { apply on_ranks_ext. intros r _. destruct (part_size (d_t K D) r) as [s|] eqn:E; [|reflexivity]. rewrite nm_ok by exact (size_fits _ _ mu Ht Hr _ _ E). reflexivity. }
      rewrite E. clear E. match goal with |- (match ?x with _ => _ end) = _ => destruct x as [op|]; [|reflexivity] end.
      rewrite int_mat_l2l_eq. match goal with |- (match ?x with _ => _ end) = _ => destruct x as [os|]; [|reflexivity] end.
      apply on_ranks_ext. intros r _. destruct (part_size (d_t K D) r) as [s|] eqn:E; [|reflexivity]. apply unpack_eq. exact (size_fits _ _ mu Ht Hr _ _ E).
    Qed.

    Hypothesis Hw : forall r s, r < world -> part_size (d_s K D) r = Some s -> fits ((nc + world * s) * mu).
    Lemma repeat_sum : forall n x, list_sum (map (fun _ : nat => x) (seq 0 n)) = n * x.
    Proof.
      intros n x. assert (G : forall a, list_sum (map (fun _ : nat => x) (seq a n)) = n * x).
      { induction n as [|n IH]; intros a; [reflexivity|]. cbn [seq map]. change (list_sum (x :: map (fun _ : nat => x) (seq (S a) n))) with (x + list_sum (map (fun _ : nat => x) (seq (S a) n))). rewrite IH. lia. }
      apply G.
    Qed.
    Lemma int_tmat_l2l_eq : forall ins outs works, int_tmat_l2l_m K D ins outs works mu = int_tmat_l2l K D ins outs works mu.
    Proof.
      intros ins outs works. unfold int_tmat_l2l_m, int_tmat_l2l.
      match goal with |- (match d_sym K D with SyN => ?a | _ => _ end) = (match d_sym K D with SyN => ?b | _ => _ end) => assert (G : a = b) end.
      { rewrite (nm_ok nc mu) by exact Hc. cbv beta iota. match goal with |- (match ?x with _ => _ end) = _ => destruct x as [parts|]; [|reflexivity] end.
        rewrite (counts_m _ _ mu Hs Hc). destruct (part_counts (d_s K D) world mu) as [sc|] eqn:E; [|reflexivity]. rewrite (prefix_m _ _ mu Hs Hc sc E).
        apply on_ranks_ext. intros r Hrk. destruct (part_size (d_s K D) r) as [s|] eqn:Es; [|reflexivity].
        assert (Fs := size_fits _ _ mu Hs Hc _ _ Es). assert (Fw := Hw r s Hrk Es). rewrite (nm_ok s mu) by exact Fs. cbv beta iota zeta.
        replace (on_ranks world (fun _ => Some (s * mu))) with (Some (map (fun _ : nat => s * mu) (seq 0 world))).
        2:{ pose proof (all_some_map _ (map (fun _ : nat => s * mu) (seq 0 world))) as Em. rewrite map_map in Em. symmetry. exact Em. }
        rewrite prefix_ok by (rewrite repeat_sum; fit Fw). reflexivity. }
      rewrite G. destruct (d_sym K D); try reflexivity; apply int_mat_l2l_eq.
    Qed.
    Lemma tmat_l2l_eq : forall ins outs works,
      tmat_l2l_m K D ins outs works mu = tmat_l2l K D ins outs (works_used works (fun r => (nc + world * (match part_size (d_s K D) r with Some s => s | None => 0 end)) * mu)) mu.
    Proof.
      intros ins outs works. unfold tmat_l2l_m.
      rewrite (work_eq works _ (fun r => (nc + world * (match part_size (d_s K D) r with Some s => s | None => 0 end)) * mu)).
      2:{ intros r Hrk. destruct (part_nth _ _ Hs r Hrk) as (o & s & En & _). destruct (part_size_ok _ _ _ _ En) as [Es _]. rewrite Es.
          assert (Fw := Hw r s Hrk Es). rewrite (nm_ok world s) by fit Fw. cbv beta iota. rewrite (na_ok nc (world * s)) by fit Fw. cbv beta iota. apply nm_ok. exact Fw. }
      cbv beta iota. set (ws := works_used works _). unfold tmat_l2l.
      match goal with |- (match d_sym K D with SyN => ?a | _ => _ end) = (match d_sym K D with SyN => ?b | _ => _ end) => assert (G : a = b) end.
      { match goal with |- (match on_ranks _ ?f with _ => _ end) = (match on_ranks _ ?g with _ => _ end) => assert (E : on_ranks world f = on_ranks world g) end.
        { apply on_ranks_ext. intros r _. destruct (part_size (d_t K D) r) as [s|] eqn:E; [|reflexivity]. apply pack_local_eq. exact (size_fits _ _ mu Ht Hr _ _ E). }
        rewrite E. clear E. match goal with |- (match ?x with _ => _ end) = _ => destruct x as [ip|]; [|reflexivity] end.
        match goal with |- (match on_ranks _ ?f with _ => _ end) = (match on_ranks _ ?g with _ => _ end) => assert (E : on_ranks world f = on_ranks world g) end.
        { apply on_ranks_ext. intros r _. destruct (part_size (d_s K D) r) as [s|] eqn:E; [|reflexivity]. rewrite nm_ok by exact (size_fits _ _ mu Hs Hc _ _ E). reflexivity. }
        rewrite E. clear E. match goal with |- (match ?x with _ => _ end) = _ => destruct x as [op|]; [|reflexivity] end.
        rewrite int_tmat_l2l_eq. match goal with |- (match ?x with _ => _ end) = _ => destruct x as [os|]; [|reflexivity] end.
        apply on_ranks_ext. intros r _. destruct (part_size (d_s K D) r) as [s|] eqn:E; [|reflexivity]. apply unpack_eq. exact (size_fits _ _ mu Hs Hc _ _ E). }
      rewrite G. destruct (d_sym K D); [reflexivity| | |reflexivity].
      - rewrite mat_l2l_eq. reflexivity.
      - match goal with |- (match on_ranks _ ?f with _ => _ end) = (match on_ranks _ ?g with _ => _ end) => assert (E : on_ranks world f = on_ranks world g) end.
        { apply on_ranks_ext. intros r _. destruct (part_size (d_t K D) r) as [s|] eqn:E; [|reflexivity]. rewrite nm_ok by exact (size_fits _ _ mu Ht Hr _ _ E). reflexivity. }
        rewrite E. clear E. match goal with |- (match ?x with _ => _ end) = _ => destruct x as [ic|]; [|reflexivity] end.
        rewrite mat_l2l_eq. cbn [works_used]. match goal with |- (match ?x with _ => _ end) = _ => destruct x as [os|]; [|reflexivity] end.
        apply on_ranks_ext. intros r _. destruct (part_size (d_s K D) r) as [s|] eqn:E; [|reflexivity]. rewrite nm_ok by exact (size_fits _ _ mu Hs Hc _ _ E). reflexivity.
    Qed.
  End Local.
End Ops.
