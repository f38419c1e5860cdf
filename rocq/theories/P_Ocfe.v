(** Proofs about the axial finite-element operator (C26). *)
From Coq Require Import Reals List Arith Bool Lra Lia.
From Verif Require Import Lib_Py Lib_Sum Lib_Poly M_Colloc S_Colloc P_Colloc.
Import ListNotations.
Open Scope R_scope.

(** ** Grid *)

Definition del {A} (s : nat) (l : list A) (idx : list nat) : list A :=
  map snd (filter (fun p => negb (existsb (Nat.eqb (fst p)) idx)) (combine (seq s (length l)) l)).

Lemma del_app {A} s (l1 l2 : list A) idx :
  del s (l1 ++ l2) idx = del s l1 idx ++ del (s + length l1) l2 idx.
Proof.
  revert s; induction l1 as [|a l1 IH]; intros s; [simpl; rewrite Nat.add_0_r; reflexivity|].
  unfold del in *. simpl. replace (s + S (length l1))%nat with (S s + length l1)%nat by lia.
  destruct (existsb (Nat.eqb s) idx); simpl; rewrite IH; reflexivity.
Qed.
Lemma existsb_eqb_true i idx : existsb (Nat.eqb i) idx = true <-> In i idx.
Proof.
  rewrite existsb_exists. split.
  - intros (y & Hy & E). apply Nat.eqb_eq in E. subst; assumption.
  - intros H. exists i. split; [assumption|apply Nat.eqb_refl].
Qed.
Lemma del_ext {A} s (l : list A) idx idx' :
  (forall i, (s <= i < s + length l)%nat -> In i idx <-> In i idx') -> del s l idx = del s l idx'.
Proof.
  revert s; induction l as [|a l IH]; intros s H; [reflexivity|].
  unfold del in *. simpl.
  assert (E : existsb (Nat.eqb s) idx = existsb (Nat.eqb s) idx').
  { apply Bool.eq_iff_eq_true. rewrite !existsb_eqb_true. apply H. simpl. lia. }
  rewrite E. destruct (existsb (Nat.eqb s) idx'); simpl; rewrite (IH (S s)); auto;
    intros i Hi; apply H; simpl; lia.
Qed.
Lemma del_none {A} s (l : list A) : del s l [] = l.
Proof.
  revert s; induction l as [|a l IH]; intros s; [reflexivity|].
  unfold del in *. simpl. f_equal. apply IH.
Qed.
Lemma del_head {A} s (a : A) l idx : In s idx -> del s (a :: l) idx = del (S s) l idx.
Proof.
  intros H. unfold del. simpl. apply existsb_eqb_true in H. rewrite H. reflexivity.
Qed.

Section X.
Variables (L : nat) (g : nat -> nat -> R).
Definition rawgrid K := concat (map (fun k => map (g k) (seq 0 (S L))) (seq 0 K)).
Definition dels K := map (fun k => S L * (k + 1))%nat (seq 0 (K - 1)).
Lemma rawgrid_length K : length (rawgrid K) = (K * S L)%nat.
Proof.
  unfold rawgrid. induction K as [|K IH]; [reflexivity|].
  rewrite (seq_S K), map_app, concat_app, app_length, IH. simpl.
  rewrite app_nil_r, map_length, seq_length. lia.
Qed.
Lemma rawgrid_S K : rawgrid (S K) = rawgrid K ++ map (g K) (seq 0 (S L)).
Proof.
  unfold rawgrid. rewrite (seq_S K), map_app, concat_app. simpl. rewrite app_nil_r. reflexivity.
Qed.
Lemma In_dels i K : In i (dels K) <-> exists k, (k < K - 1)%nat /\ i = (S L * (k + 1))%nat.
Proof.
  unfold dels. rewrite in_map_iff. split.
  - intros (k & E & H). apply in_seq in H. exists k. split; [lia|congruence].
  - intros (k & H & E). exists k. split; [congruence|apply in_seq; lia].
Qed.
Definition grid K := g 0%nat 0%nat :: concat (map (fun k => map (g k) (seq 1 L)) (seq 0 K)).
Lemma del_grid K : del 0 (rawgrid (S K)) (dels (S K)) = grid (S K).
Proof.
  induction K as [|K IH].
  - unfold dels, rawgrid, grid. simpl seq at 2 4. simpl map at 3. rewrite del_none.
    reflexivity.
  - rewrite rawgrid_S, del_app, rawgrid_length.
    rewrite (del_ext 0 (rawgrid (S K)) (dels (S (S K))) (dels (S K))).
    + rewrite IH. simpl (0 + _)%nat.
      change (seq 0 (S L)) with (0 :: seq 1 L)%nat. simpl map at 1. rewrite del_head.
      * rewrite (del_ext _ _ _ []).
        -- rewrite del_none. unfold grid. rewrite (seq_S (S K)), map_app, concat_app.
           simpl. rewrite app_nil_r. reflexivity.
        -- rewrite map_length, seq_length. intros i Hi. split; [|intros []].
           intros H. apply In_dels in H. destruct H as (k & Hk & ->). exfalso. nia.
      * apply In_dels. exists K. split; [lia|]. lia.
    + rewrite rawgrid_length. intros i Hi. rewrite !In_dels. split.
      * intros (k & Hk & E). exists k. split; [nia|exact E].
      * intros (k & Hk & E). exists k. split; [lia|exact E].
Qed.
Lemma grid_length K : length (grid K) = (K * L + 1)%nat.
Proof.
  unfold grid. induction K as [|K IH]; [reflexivity|].
  rewrite seq_S, map_app, concat_app. simpl in *. rewrite app_length, app_nil_r, map_length, seq_length.
  lia.
Qed.
Lemma grid_nth K k p : (k < K)%nat -> (1 <= p <= L)%nat -> nth (k * L + p) (grid K) 0 = g k p.
Proof.
  induction K as [|K IH]; intros Hk Hp; [lia|].
  assert (E : grid (S K) = grid K ++ map (g K) (seq 1 L)).
  { unfold grid. rewrite seq_S, map_app, concat_app. simpl. rewrite app_nil_r. reflexivity. }
  rewrite E. destruct (Nat.eq_dec k K) as [->|Hn].
  - rewrite app_nth2; rewrite grid_length; [|lia].
    replace (K * L + p - (K * L + 1))%nat with (p - 1)%nat by lia.
    rewrite (nth_indep _ 0 (g K 0%nat)) by (rewrite map_length, seq_length; lia).
    rewrite map_nth, seq_nth by lia. f_equal. lia.
  - rewrite app_nth1; [apply IH; lia|]. rewrite grid_length. nia.
Qed.
End X.

Lemma Xvals_grid roots NE L : (1 <= NE)%nat ->
  Xvals roots NE (S L) = grid L (fun k p => roots p / INR NE + INR k / INR NE) NE.
Proof.
  intros H. destruct NE as [|K]; [lia|]. rewrite <- del_grid. reflexivity.
Qed.

Section Grid.
Variables (leg : nat -> nat -> R) (NE L : nat).
Hypothesis HE : (1 <= NE)%nat.
Hypothesis HL : (1 <= L)%nat.
Hypothesis HR : interior_roots (L - 1) (leg (L - 1)%nat).
Let x := rootsz leg (S L).
Let X m := nth m (Xvals x NE (S L)) 0.

Lemma x_facts : x 0%nat = 0 /\ x L = 1 /\ forall i j, (i < j)%nat -> (j <= L)%nat -> x i < x j.
Proof.
  destruct (rootsz_increasing leg (S L)) as (A & B & C); [lia| |].
  - replace (S L - 2)%nat with (L - 1)%nat by lia. exact HR.
  - replace (S L - 1)%nat with L in B by lia. split; [exact A|]. split; [exact B|].
    intros i j Hi Hj. apply C; lia.
Qed.
Lemma x_distinct : distinct (S L) x.
Proof. apply increasing_distinct. intros i j Hi Hj. apply x_facts; lia. Qed.

Lemma INR_NE : 0 < INR NE.
Proof. apply lt_0_INR. lia. Qed.

Lemma X_length : length (Xvals x NE (S L)) = (NE * L + 1)%nat.
Proof. rewrite Xvals_grid by assumption. apply grid_length. Qed.

Lemma X_value k p : (k < NE)%nat -> (p <= L)%nat -> X (k * L + p) = (x p + INR k) / INR NE.
Proof.
  intros Hk Hp. unfold X. rewrite Xvals_grid by assumption.
  assert (HN := INR_NE). destruct x_facts as (X0 & X1 & _).
  destruct p as [|p].
  - destruct k as [|k].
    + simpl. field. lra.
    + replace (S k * L + 0)%nat with (k * L + L)%nat by lia.
      rewrite grid_nth by lia. rewrite X0, X1, S_INR. field. lra.
  - rewrite grid_nth by lia. field. lra.
Qed.

Lemma split_index m : (m < NE * L + 1)%nat -> m = 0%nat \/
  exists k p, (k < NE)%nat /\ (1 <= p <= L)%nat /\ m = (k * L + p)%nat.
Proof.
  intros Hm. destruct m as [|m]; [left; reflexivity|right].
  exists (m / L)%nat, (m mod L + 1)%nat.
  assert (E := Nat.div_mod m L ltac:(lia)). assert (B := Nat.mod_upper_bound m L ltac:(lia)).
  split; [|split; [lia|nia]]. apply Nat.div_lt_upper_bound; lia.
Qed.

Lemma X_step m : (S m < NE * L + 1)%nat -> X m < X (S m).
Proof.
  intros Hm. assert (HN := INR_NE). destruct x_facts as (X0 & X1 & HO).
  destruct (split_index (S m) Hm) as [E|(k & p & Hk & Hp & E)]; [discriminate|].
  rewrite E. rewrite X_value by lia.
  replace m with (k * L + (p - 1))%nat by lia. rewrite X_value by lia.
  apply Rmult_lt_compat_r; [apply Rinv_0_lt_compat; exact HN|].
  assert (x (p - 1)%nat < x p) by (apply HO; lia). lra.
Qed.
Lemma X_increasing i j : (i < j)%nat -> (j < NE * L + 1)%nat -> X i < X j.
Proof.
  intros Hij. induction Hij as [|j Hij IH]; intros Hj; [apply X_step; assumption|].
  eapply Rlt_trans; [apply IH; lia|apply X_step; assumption].
Qed.
Lemma X_first : X 0 = 0.
Proof.
  replace 0%nat with (0 * L + 0)%nat by lia. rewrite X_value by lia.
  destruct x_facts as (-> & _ & _). simpl. unfold Rdiv. ring.
Qed.
Lemma X_last : X (NE * L) = 1.
Proof.
  replace (NE * L)%nat with ((NE - 1) * L + L)%nat by nia.
  rewrite X_value by lia. destruct x_facts as (_ & -> & _).
  assert (HN := INR_NE). rewrite minus_INR by lia. simpl (INR 1). field. lra.
Qed.

(** ** Operator entries *)

Let A := Amat (S L) x.

Definition blocks n (M0 : matrix) : matrix :=
  fold_left (fun M k =>
      let ii := (k * S L - k)%nat in let iii := ((k + 1) * S L - k)%nat in
      set_block M ii iii ii iii (fun i j => INR NE * A i j)) (seq 0 n) M0.
Lemma set_block_in M r0 r1 c0 c1 f i j : (r0 <= i < r1)%nat -> (c0 <= j < c1)%nat ->
  set_block M r0 r1 c0 c1 f i j = f (i - r0)%nat (j - c0)%nat.
Proof.
  intros Hi Hj. unfold set_block.
  rewrite (proj2 (Nat.leb_le r0 i)), (proj2 (Nat.ltb_lt i r1)), (proj2 (Nat.leb_le c0 j)),
    (proj2 (Nat.ltb_lt j c1)) by lia. reflexivity.
Qed.
Lemma set_block_out M r0 r1 c0 c1 f i j :
  (i < r0 \/ r1 <= i \/ j < c0 \/ c1 <= j)%nat -> set_block M r0 r1 c0 c1 f i j = M i j.
Proof.
  intros H. unfold set_block.
  destruct (Nat.leb_spec r0 i), (Nat.ltb_spec i r1), (Nat.leb_spec c0 j), (Nat.ltb_spec j c1);
    simpl; try reflexivity. lia.
Qed.
Lemma blocks_S n M0 : blocks (S n) M0 =
  set_block (blocks n M0) (n * L) (n * L + L + 1) (n * L) (n * L + L + 1) (fun i j => INR NE * A i j).
Proof.
  unfold blocks. rewrite seq_S, fold_left_app. cbn [fold_left].
  replace (0 + n)%nat with n by lia.
  replace (n * S L - n)%nat with (n * L)%nat by nia.
  replace ((n + 1) * S L - n)%nat with (n * L + L + 1)%nat by nia. reflexivity.
Qed.
Lemma blocks_untouched n k p j : (n <= k)%nat -> (1 <= p <= L)%nat ->
  blocks n (fun _ _ => 0) (k * L + p)%nat j = 0.
Proof.
  induction n as [|n IH]; intros Hk Hp; [reflexivity|].
  rewrite blocks_S, set_block_out; [apply IH; lia|]. right; left. nia.
Qed.
Lemma blocks_row n k p j : (k < n)%nat -> (1 <= p <= L)%nat -> (p < L \/ S k = n)%nat ->
  blocks n (fun _ _ => 0) (k * L + p)%nat j
  = if (Nat.leb (k * L) j && Nat.ltb j (k * L + L + 1))%bool
    then INR NE * A p (j - k * L)%nat else 0.
Proof.
  induction n as [|n IH]; intros Hk Hp Hc; [lia|].
  rewrite blocks_S. destruct (Nat.eq_dec k n) as [->|Hn].
  - destruct (Nat.leb_spec (n * L) j), (Nat.ltb_spec j (n * L + L + 1)); cbn [andb].
    + rewrite set_block_in by lia. do 2 f_equal. lia.
    + rewrite set_block_out by lia. apply blocks_untouched; lia.
    + rewrite set_block_out by lia. apply blocks_untouched; lia.
    + lia.
  - rewrite set_block_out; [apply IH; lia|]. left. nia.
Qed.

Definition Qd := A L L - A 0%nat 0%nat.
Definition joints NZ n (M0 : matrix) : matrix :=
  fold_left (fun M k =>
      let idx := (k * S L - k)%nat in
      let ii := ((k + 1) * S L - (k + 1))%nat in
      let iii := ((k + 2) * S L - (k + 1))%nat in
      let M1 := set_block M ii (ii + 1) 0 NZ (fun _ _ => 0) in
      let M2 := set_block M1 ii (ii + 1) idx ii
                 (fun _ j => INR NE * A L j - INR NE * A L L / Qd * A L j) in
      set_block M2 ii (ii + 1) (ii + 1) iii
                 (fun _ j => INR NE * A L L / Qd * A 0%nat (j + 1)%nat)) (seq 0 n) M0.
Lemma joints_S NZ n M0 : joints NZ (S n) M0 =
  let M1 := set_block (joints NZ n M0) (n * L + L) (n * L + L + 1) 0 NZ (fun _ _ => 0) in
  let M2 := set_block M1 (n * L + L) (n * L + L + 1) (n * L) (n * L + L)
              (fun _ j => INR NE * A L j - INR NE * A L L / Qd * A L j) in
  set_block M2 (n * L + L) (n * L + L + 1) (n * L + L + 1) (n * L + 2 * L + 1)
              (fun _ j => INR NE * A L L / Qd * A 0%nat (j + 1)%nat).
Proof.
  unfold joints. rewrite seq_S, fold_left_app. cbn [fold_left].
  replace (0 + n)%nat with n by lia.
  replace (n * S L - n)%nat with (n * L)%nat by nia.
  replace ((n + 1) * S L - (n + 1))%nat with (n * L + L)%nat by nia.
  replace ((n + 2) * S L - (n + 1))%nat with (n * L + 2 * L + 1)%nat by nia.
  reflexivity.
Qed.
Lemma joints_out NZ n M0 i j : (forall k, (k < n)%nat -> i <> (k * L + L)%nat) ->
  joints NZ n M0 i j = M0 i j.
Proof.
  induction n as [|n IH]; intros H; [reflexivity|].
  rewrite joints_S. cbv zeta. assert (Hn := H n ltac:(lia)).
  rewrite !set_block_out by lia. apply IH. intros k Hk. apply H. lia.
Qed.
Lemma joints_row NZ n M0 k j : (k < n)%nat -> (j < NZ)%nat ->
  joints NZ n M0 (k * L + L)%nat j =
  if (Nat.leb (k * L) j && Nat.ltb j (k * L + L))%bool
  then INR NE * A L (j - k * L)%nat - INR NE * A L L / Qd * A L (j - k * L)%nat
  else if (Nat.leb (k * L + L + 1) j && Nat.ltb j (k * L + 2 * L + 1))%bool
  then INR NE * A L L / Qd * A 0%nat (j - (k * L + L))%nat else 0.
Proof.
  induction n as [|n IH]; intros Hk Hj; [lia|].
  rewrite joints_S. cbv zeta. destruct (Nat.eq_dec k n) as [->|Hn].
  - destruct (Nat.leb_spec (n * L) j), (Nat.ltb_spec j (n * L + L)); cbn [andb].
    + rewrite set_block_out by lia. rewrite set_block_in by lia. reflexivity.
    + destruct (Nat.leb_spec (n * L + L + 1) j), (Nat.ltb_spec j (n * L + 2 * L + 1)); cbn [andb].
      * rewrite set_block_in by lia. do 2 f_equal. lia.
      * rewrite set_block_out, set_block_out by lia. rewrite set_block_in by lia. reflexivity.
      * rewrite set_block_out, set_block_out by lia. rewrite set_block_in by lia. reflexivity.
      * lia.
    + destruct (Nat.leb_spec (n * L + L + 1) j); [lia|]. cbn [andb].
      rewrite set_block_out, set_block_out by lia. rewrite set_block_in by lia. reflexivity.
    + lia.
  - rewrite !set_block_out by nia. apply IH; [lia|assumption].
Qed.

Definition NZ := (NE * L + 1)%nat.
Definition Adv := fst (advect_operator leg NE (S L)).
Lemma Adv_eq : Adv = set_block (joints NZ (NE - 1) (blocks NE (fun _ _ => 0))) 0 1 0 NZ (fun _ _ => 0).
Proof.
  unfold Adv, advect_operator. cbv zeta. cbn [fst].
  replace (NE * S L - (NE - 1))%nat with NZ by (unfold NZ; nia).
  unfold fill_joints, fill_blocks, joints, blocks, Qd.
  replace (S L - 1)%nat with L by lia. reflexivity.
Qed.

Lemma Adv_inlet j : (j < NZ)%nat -> Adv 0%nat j = 0.
Proof. intros Hj. rewrite Adv_eq, set_block_in by lia. reflexivity. Qed.

Lemma Adv_interior k p j : (k < NE)%nat -> (1 <= p <= L)%nat -> (p < L \/ S k = NE)%nat ->
  Adv (k * L + p)%nat j = if (Nat.leb (k * L) j && Nat.ltb j (k * L + L + 1))%bool
                      then INR NE * A p (j - k * L)%nat else 0.
Proof.
  intros Hk Hp Hc. rewrite Adv_eq, set_block_out by lia. rewrite joints_out.
  - apply blocks_row; assumption.
  - intros k' Hk' E. destruct (le_lt_dec k k').
    + assert (k * L <= k' * L)%nat by nia. assert (p = L) by lia. subst p.
      assert (S k = NE) by lia. lia.
    + assert (S k' * L <= k * L)%nat by nia. lia.
Qed.
Lemma Adv_joint k j : (S k < NE)%nat -> (j < NZ)%nat ->
  Adv (k * L + L)%nat j =
  if (Nat.leb (k * L) j && Nat.ltb j (k * L + L))%bool
  then INR NE * A L (j - k * L)%nat - INR NE * A L L / Qd * A L (j - k * L)%nat
  else if (Nat.leb (k * L + L + 1) j && Nat.ltb j (k * L + 2 * L + 1))%bool
  then INR NE * A L L / Qd * A 0%nat (j - (k * L + L))%nat else 0.
Proof.
  intros Hk Hj. rewrite Adv_eq, set_block_out by lia. apply joints_row; [lia|assumption].
Qed.

(** ** Q is not zero *)

Lemma px_sign s r l p1 p2 p3 :
  (forall j, In j l -> 0 <= s * (r - x j)) -> p1 <> 0 -> 0 <= s * (p1 * p2) ->
  let t := fold_left (fun p j => if reqb (x j - r) 0 then p else recur p (r - x j)) l (p1, p2, p3) in
  fst (fst t) <> 0 /\ 0 <= s * (fst (fst t) * snd (fst t)) /\
  (0 < s * (p1 * p2) \/ (exists j, In j l /\ 0 < s * (r - x j)) -> 0 < s * (fst (fst t) * snd (fst t))).
Proof.
  revert p1 p2 p3. induction l as [|j l IH]; intros p1 p2 p3 Hl H1 H2; cbn [fold_left]; cbv zeta.
  - simpl. split; [assumption|]. split; [assumption|]. intros [H|(j & [] & _)]; assumption.
  - destruct (reqb (x j - r) 0) eqn:E.
    + apply reqb_true in E. destruct (IH p1 p2 p3) as (I1 & I2 & I3);
        [intros; apply Hl; right; assumption|assumption|assumption|].
      split; [assumption|]. split; [assumption|]. intros [H|(k & [<-|Hk] & Hs)].
      * apply I3. left; assumption.
      * exfalso. replace (r - x j) with 0 in Hs by lra. lra.
      * apply I3. right. exists k. split; assumption.
    + apply reqb_false in E. unfold recur at 2 4 6 8 10.
      assert (Hj : 0 <= s * (r - x j)) by (apply Hl; left; reflexivity).
      assert (Hh : r - x j <> 0) by lra.
      assert (Hsq : 0 < (r - x j) * (r - x j)) by (apply Rlt_0_sqr; exact Hh).
      assert (Hsp : 0 < p1 * p1) by (apply Rlt_0_sqr; exact H1).
      assert (Es : s * ((r - x j) * p1 * ((r - x j) * p2 + 2 * p1))
                   = (r - x j) * (r - x j) * (s * (p1 * p2)) + 2 * (s * (r - x j)) * (p1 * p1)) by ring.
      assert (G1 : 0 <= (r - x j) * (r - x j) * (s * (p1 * p2)))
        by (apply Rmult_le_pos; lra).
      assert (G2 : 0 <= 2 * (s * (r - x j)) * (p1 * p1))
        by (apply Rmult_le_pos; lra).
      destruct (IH ((r - x j) * p1) ((r - x j) * p2 + 2 * p1) ((r - x j) * p3 + 3 * p2)) as (I1 & I2 & I3).
      * intros; apply Hl; right; assumption.
      * apply Rmult_integral_contrapositive; split; assumption.
      * rewrite Es. lra.
      * split; [exact I1|]. split; [exact I2|]. intros [H|(k & [<-|Hk] & Hs)]; apply I3.
        -- left. rewrite Es. assert (0 < (r - x j) * (r - x j) * (s * (p1 * p2)))
             by (apply Rmult_lt_0_compat; assumption). lra.
        -- left. rewrite Es. assert (0 < 2 * (s * (r - x j)) * (p1 * p1))
             by (apply Rmult_lt_0_compat; lra). lra.
        -- right. exists k. split; assumption.
Qed.

Lemma A_diag_sign s i k : (k <= L)%nat ->
  (forall j, (j <= L)%nat -> 0 <= s * (x i - x j)) -> 0 < s * (x i - x k) -> 0 < s * A i i.
Proof.
  intros Hk H Hs. unfold A, Amat. rewrite Nat.eqb_refl.
  destruct (px_sign s (x i) (seq 0 (S L)) 1 0 0) as (I1 & _ & I3).
  - intros j Hj. apply in_seq in Hj. apply H. lia.
  - lra.
  - lra.
  - assert (P : 0 < s * (px1 (S L) x i * px2 (S L) x i)).
    { apply I3. right. exists k. split; [apply in_seq; lia|exact Hs]. }
    assert (N : px1 (S L) x i <> 0) by exact I1.
    replace (s * (1 / 2 * px2 (S L) x i / px1 (S L) x i))
      with (1 / 2 * (s * (px1 (S L) x i * px2 (S L) x i)) * / (px1 (S L) x i * px1 (S L) x i))
      by (field; assumption).
    apply Rmult_lt_0_compat; [lra|]. apply Rinv_0_lt_compat, Rlt_0_sqr. assumption.
Qed.

Lemma Qd_pos : 0 < Qd.
Proof.
  destruct x_facts as (X0 & X1 & HO).
  assert (0 < 1 * A L L).
  { apply (A_diag_sign 1 L 0); [lia| |].
    - intros j Hj. destruct (Nat.eq_dec j L) as [->|]; [lra|].
      assert (x j < x L) by (apply HO; lia). lra.
    - rewrite X0, X1. lra. }
  assert (0 < -1 * A 0%nat 0%nat).
  { apply (A_diag_sign (-1) 0 L); [lia| |].
    - intros j Hj. destruct (Nat.eq_dec j 0) as [->|]; [lra|].
      assert (x 0%nat < x j) by (apply HO; lia). lra.
    - rewrite X0, X1. lra. }
  unfold Qd. lra.
Qed.

(** ** Exactness *)

Lemma rsum_window n a w f : (a + w <= n)%nat ->
  (forall j, (j < n)%nat -> (j < a \/ a + w <= j)%nat -> f j = 0) ->
  rsum n f = rsum w (fun p => f (a + p)%nat).
Proof.
  intros Hn H. replace n with (a + (w + (n - a - w)))%nat by lia.
  rewrite rsum_app, rsum_app.
  rewrite (rsum_zero a) by (intros; apply H; lia).
  rewrite (rsum_zero (n - a - w)) by (intros; apply H; lia). lra.
Qed.

Section Piecewise.
Variables (f : nat -> R) (c : nat -> nat -> R) (d : nat -> R -> R).
Hypothesis Hd : forall k, (k < NE)%nat -> derivative (poly (S L) (c k)) (d k).
Hypothesis Hf : forall k p, (k < NE)%nat -> (p <= L)%nat ->
  f (k * L + p)%nat = poly (S L) (c k) (X (k * L + p)).
Hypothesis Hj : forall k, (S k < NE)%nat -> d k (X (k * L + L)) = d (S k) (X (k * L + L)).

Lemma element_exact k p : (k < NE)%nat -> (p <= L)%nat ->
  rsum (S L) (fun q => INR NE * A p q * f (k * L + q)%nat) = d k (X (k * L + p)).
Proof.
  intros Hk Hp. assert (HN := INR_NE).
  set (P := coefs (S L) (c k)).
  assert (Ed : forall y, d k y = peval (pderiv P) y).
  { intros y. apply (uniqueness_limite (poly (S L) (c k)) y); [apply Hd, Hk|].
    eapply derivable_pt_lim_ext; [|apply peval_deriv].
    intros z. symmetry. apply poly_peval. }
  assert (HX := A_exact_list (S L) x x_distinct (paff (/ INR NE) (INR k / INR NE) P) p).
  rewrite pderiv_paff in HX.
  rewrite X_value, Ed by assumption.
  replace ((x p + INR k) / INR NE) with (/ INR NE * x p + INR k / INR NE) by (field; lra).
  assert (HX' := HX ltac:(eapply Nat.le_trans; [apply length_paff|unfold P; rewrite length_coefs; lia]) ltac:(lia)).
  replace (peval (pderiv P) (/ INR NE * x p + INR k / INR NE))
    with (INR NE * (/ INR NE * peval (pderiv P) (/ INR NE * x p + INR k / INR NE))) by (field; lra).
  rewrite <- HX'. unfold apply_row. rewrite <- rsum_scal. apply rsum_ext. intros q Hq.
  rewrite peval_paff, Hf by (try assumption; lia). rewrite poly_peval. fold P.
  rewrite X_value by (try assumption; lia).
  replace ((x q + INR k) / INR NE) with (/ INR NE * x q + INR k / INR NE) by (field; lra).
  unfold A. ring.
Qed.

Lemma Adv_exact k p : (k < NE)%nat -> (1 <= p <= L)%nat ->
  apply_row NZ Adv f (k * L + p) = d k (X (k * L + p)).
Proof.
  intros Hk Hp. unfold apply_row.
  destruct (Nat.eq_dec p L) as [->|Hpl].
  1: destruct (Nat.eq_dec (S k) NE) as [Hlast|Hnl].
  - rewrite <- element_exact by lia.
    rewrite (rsum_window NZ (k * L) (S L)) by
      (try (unfold NZ; nia); intros j Hj1 Hj2; rewrite Adv_interior by lia;
       destruct (Nat.leb_spec (k * L) j), (Nat.ltb_spec j (k * L + L + 1)); cbn [andb]; try lra; lia).
    apply rsum_ext. intros q Hq. rewrite Adv_interior by lia.
    rewrite (proj2 (Nat.leb_le _ _)), (proj2 (Nat.ltb_lt _ _)) by lia. cbn [andb].
    replace (k * L + q - k * L)%nat with q by lia. reflexivity.
  - (* joint *)
    assert (HQ := Qd_pos).
    assert (E1 := element_exact k L Hk (le_n L)).
    assert (E2 := element_exact (S k) 0 ltac:(lia) ltac:(lia)).
    replace (S k * L + 0)%nat with (k * L + L)%nat in E2 by lia.
    rewrite <- (Hj k) in E2 by lia. rewrite <- E1.
    rewrite (rsum_window NZ (k * L) (L + S L)).
    + rewrite rsum_app.
      rewrite (rsum_ext L _ (fun q => (1 - A L L / Qd) * (INR NE * A L q * f (k * L + q)%nat))).
      2:{ intros q Hq. rewrite Adv_joint by (unfold NZ; nia).
          rewrite (proj2 (Nat.leb_le _ _)), (proj2 (Nat.ltb_lt _ _)) by lia. cbn [andb].
          replace (k * L + q - k * L)%nat with q by lia. field. lra. }
      rewrite rsum_S_first.
      rewrite (rsum_ext L (fun i => Adv (k * L + L)%nat (k * L + (L + S i))%nat * f (k * L + (L + S i))%nat)
                 (fun q => A L L / Qd * (INR NE * A 0%nat (S q) * f (S k * L + S q)%nat))).
      2:{ intros q Hq. rewrite Adv_joint by (unfold NZ; nia).
          rewrite (proj2 (Nat.ltb_ge (k * L + (L + S q)) (k * L + L))) by lia.
          rewrite andb_false_r.
          rewrite (proj2 (Nat.leb_le (k * L + L + 1) _)), (proj2 (Nat.ltb_lt _ (k * L + 2 * L + 1))) by lia.
          cbn [andb].
          replace (k * L + (L + S q) - (k * L + L))%nat with (S q) by lia.
          replace (k * L + (L + S q))%nat with (S k * L + S q)%nat by lia. field. lra. }
      rewrite Adv_joint by (unfold NZ; nia).
      rewrite (proj2 (Nat.ltb_ge (k * L + (L + 0)) (k * L + L))) by lia.
      rewrite andb_false_r. rewrite (proj2 (Nat.leb_gt (k * L + L + 1) _)) by lia. cbn [andb].
      rewrite !rsum_scal.
      rewrite rsum_S_first in E2.
      replace (S k * L + 0)%nat with (k * L + L)%nat in E2 by lia.
      cbn [rsum] in E1 |- *.
      set (S1 := rsum L (fun q => INR NE * A L q * f (k * L + q)%nat)) in *.
      set (S2 := rsum L (fun i => INR NE * A 0%nat (S i) * f (S k * L + S i)%nat)) in *.
      set (fj := f (k * L + L)%nat) in *. rewrite <- E1 in E2.
      assert (HS : S2 = S1 + INR NE * Qd * fj).
      { unfold Qd. lra. }
      rewrite HS. field. lra.
    + unfold NZ. nia.
    + intros j Hj1 Hj2. rewrite Adv_joint by (try assumption; lia).
      destruct (Nat.leb_spec (k * L) j), (Nat.ltb_spec j (k * L + L)); cbn [andb]; try lia;
      destruct (Nat.leb_spec (k * L + L + 1) j), (Nat.ltb_spec j (k * L + 2 * L + 1)); cbn [andb]; try lra; lia.
  - rewrite <- element_exact by lia.
    rewrite (rsum_window NZ (k * L) (S L)) by
      (try (unfold NZ; nia); intros j Hj1 Hj2; rewrite Adv_interior by lia;
       destruct (Nat.leb_spec (k * L) j), (Nat.ltb_spec j (k * L + L + 1)); cbn [andb]; try lra; lia).
    apply rsum_ext. intros q Hq. rewrite Adv_interior by lia.
    rewrite (proj2 (Nat.leb_le _ _)), (proj2 (Nat.ltb_lt _ _)) by lia. cbn [andb].
    replace (k * L + q - k * L)%nat with q by lia. reflexivity.
Qed.
End Piecewise.

Lemma Adv_row_inlet f : apply_row NZ Adv f 0 = 0.
Proof. apply rsum_zero. intros j Hj. rewrite Adv_inlet by assumption. ring. Qed.

End Grid.
