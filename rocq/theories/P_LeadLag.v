(** Proofs about the lead-lag model. *)
From Coq Require Import Reals List Arith Bool String Lra Lia ZArith.
From Verif Require Import Lib_Py M_GacSheet M_GacFun P_GacFun M_GacSmart M_GacMin M_IxUnc P_IxUnc M_Tools M_LeadLag.
Import ListNotations.
Open Scope R_scope.
Open Scope string_scope.
Local Notation length := List.length.

Lemma bind_inv {A B} (x : res A) (f : A -> res B) y : bind x f = Ok y -> exists a, x = Ok a /\ f a = Ok y.
Proof. destruct x as [a|e]; cbn; intros H; [exists a; auto|discriminate H]. Qed.
Lemma put_inv m v c r : put m v c = Ok r -> length v = m /\ r = (v ++ skipn m c)%list.
Proof. unfold put. destruct (Nat.eqb_spec (length v) m); intros H; [split; congruence|discriminate H]. Qed.

(** The positions of a downward closed set of a range are a prefix. *)
Lemma prefix_count (p : nat -> bool) : (forall k, p (S k) = true -> p k = true) -> forall N k, (k < N)%nat ->
  (p k = true <-> (k < length (filter p (seq 0 N)))%nat).
Proof.
  intros H. assert (D : forall a b, (a <= b)%nat -> p b = true -> p a = true).
  { intros a b L. induction L as [|b L IH]; intros Q; [exact Q|]. apply IH, H, Q. }
  assert (C : forall N, (p N = true -> length (filter p (seq 0 N)) = N) /\ (length (filter p (seq 0 N)) <= N)%nat).
  { induction N as [|N [IH1 IH2]]; [split; cbn; auto|]. rewrite seq_S, filter_app, app_length. cbn [Nat.add filter].
    split.
    - intros Q. rewrite (D N (S N)) by (auto; lia). cbn. rewrite IH1; [lia|]. apply (D N (S N)); auto.
    - destruct (p N); cbn; lia. }
  induction N as [|N IH]; intros k Hk; [lia|]. rewrite seq_S, filter_app, app_length. cbn [Nat.add filter].
  destruct (C N) as [C1 C2]. destruct (p N) eqn:E; cbn [length].
  - rewrite (C1 eq_refl). split; [lia|]. intros _. apply (D k N); auto; lia.
  - destruct (Nat.eq_dec k N) as [-> |NE].
    + split; [congruence|]. intros Q. lia.
    + rewrite Nat.add_0_r. apply IH. lia.
Qed.
Lemma quarters0 hi : quarters 0 hi = map (fun k => INR k / 4) (seq 0 (length (quarters 0 hi))).
Proof. unfold quarters. rewrite map_length, seq_length. apply map_ext. intros k. ring. Qed.
Lemma filter_map_len {A B} (f : A -> B) (p : B -> bool) l : length (filter p (map f l)) = length (filter (fun a => p (f a)) l).
Proof. induction l as [|a l IH]; [reflexivity|]. cbn. destruct (p (f a)); cbn; rewrite IH; reflexivity. Qed.
Lemma nth_error_quarters lo hi k t : nth_error (quarters lo hi) k = Some t -> t = lo + INR k / 4 /\ (k < length (quarters lo hi))%nat.
Proof.
  intros H. split; [|apply nth_error_Some; congruence]. unfold quarters in H. rewrite nth_error_map in H.
  destruct (nth_error (seq 0 (arange_len lo hi (1 / 4))) k) as [j|] eqn:E; [|discriminate H].
  assert (j = k). { pose proof (nth_error_Some (seq 0 (arange_len lo hi (1 / 4))) k) as Q. rewrite E in Q.
    assert (L : (k < length (seq 0 (arange_len lo hi (1/4))))%nat) by (apply Q; congruence). rewrite seq_length in L.
    apply nth_error_nth with (d := 0%nat) in E. rewrite seq_nth in E by exact L. lia. }
  subst j. cbn in H. congruence.
Qed.
Lemma mapM_nth_error {A B} (f : A -> res B) : forall l r, mapM f l = Ok r -> forall k a, nth_error l k = Some a ->
  exists b, nth_error r k = Some b /\ f a = Ok b.
Proof.
  induction l as [|x l IH]; intros r H k a E; [destruct k; discriminate E|]. cbn in H.
  destruct (bind_inv _ _ _ H) as (y & H1 & H'). destruct (bind_inv _ _ _ H') as (ys & H2 & H3).
  assert (r = y :: ys) by congruence. subst r. destruct k as [|k]; cbn in *; [exists y; split; congruence|]. apply (IH ys H2 k a E).
Qed.
Lemma nth_error_combine {A B} : forall (l : list A) (r : list B) k a b,
  nth_error (combine l r) k = Some (a, b) <-> nth_error l k = Some a /\ nth_error r k = Some b.
Proof.
  induction l as [|x l IH]; intros r k a b; [split; [destruct k; discriminate|intros [H _]; destruct k; discriminate H]|].
  destruct r as [|y r]; [split; [destruct k; discriminate|intros [_ H]; destruct k; discriminate H]|].
  destruct k as [|k]; cbn; [split; [intros H; split; congruence|intros [H1 H2]; congruence]|]. apply IH.
Qed.
Lemma curve_ok tbl t y : curve tbl t = Ok y -> y = interp_x tbl t /\ exists x0 y0 r, tbl = (x0, y0) :: r /\ x0 <= t <= fst (last tbl (0, 0)).
Proof.
  unfold curve. destruct tbl as [|(x0, y0) r]; [discriminate|]. destruct (rltb t x0) eqn:A; [discriminate|].
  destruct (rltb (fst (last ((x0, y0) :: r) (0, 0))) t) eqn:B; [discriminate|]. cbn [orb]. intros H.
  apply rltb_false in A. apply rltb_false in B. split; [congruence|]. exists x0, y0, r. split; [reflexivity|split; assumption].
Qed.

(** Slices of a quarter-day column between quarter-days. *)
Lemma slice_grid a b : (a <= b)%nat -> forall N i l,
  map snd (slice (INR a / 4) (INR b / 4) (combine (map (fun k => INR k / 4) (seq i N)) l)) =
  firstn (b + 1 - max a i) (skipn (a - i) (firstn N l)).
Proof.
  intros AB. induction N as [|N IH]; intros i l; [cbn; rewrite skipn_nil, firstn_nil; reflexivity|].
  destruct l as [|x l]; [cbn; rewrite skipn_nil, firstn_nil; reflexivity|].
  assert (Q : forall p q, rleb (INR p / 4) (INR q / 4) = Nat.leb p q).
  { intros p q. destruct (Nat.leb_spec p q) as [L|L]; [apply rleb_true; apply le_INR in L; lra|apply rleb_false; apply lt_INR in L; lra]. }
  unfold slice in *. cbn [seq map combine filter fst]. rewrite !Q. specialize (IH (S i) l).
  destruct (Nat.leb_spec a i) as [L1|L1]; cbn [andb].
  - destruct (Nat.leb_spec i b) as [L2|L2].
    + cbn [map snd]. rewrite IH. rewrite !Nat.max_r by lia. replace (a - i)%nat with 0%nat by lia. replace (a - S i)%nat with 0%nat by lia.
      cbn [skipn firstn]. replace (b + 1 - i)%nat with (S (b + 1 - S i)) by lia. reflexivity.
    + rewrite IH. rewrite !Nat.max_r by lia. replace (b + 1 - i)%nat with 0%nat by lia. replace (b + 1 - S i)%nat with 0%nat by lia. reflexivity.
  - rewrite IH. rewrite !Nat.max_l by lia. replace (a - i)%nat with (S (a - S i)) by lia. cbn [firstn skipn]. reflexivity.
Qed.
Lemma nth_error_firstn_lt {A} : forall n k (l : list A), (k < n)%nat -> nth_error (firstn n l) k = nth_error l k.
Proof. induction n as [|n IH]; intros k l H; [lia|]. destruct l as [|x l]; [reflexivity|]. destruct k as [|k]; [reflexivity|]. cbn. apply IH. lia. Qed.
Lemma nth_error_firstn_some {A} : forall n k (l : list A) v, nth_error (firstn n l) k = Some v -> nth_error l k = Some v.
Proof. induction n as [|n IH]; intros k l v H; [destruct k; discriminate H|]. destruct l as [|x l]; [destruct k; discriminate H|]. destruct k as [|k]; [exact H|]. cbn in *. apply IH, H. Qed.
Lemma nth_error_skipn {A} : forall a (l : list A) k, nth_error (skipn a l) k = nth_error l (a + k).
Proof. induction a as [|a IH]; intros l k; [reflexivity|]. destruct l as [|x l]; [destruct k; reflexivity|]. apply IH. Qed.
Lemma slice_nth a b N l k v : (a <= b)%nat ->
  nth_error (map snd (slice (INR a / 4) (INR b / 4) (combine (map (fun k => INR k / 4) (seq 0 N)) l))) k = Some v ->
  nth_error l (a + k) = Some v.
Proof.
  intros AB H. rewrite slice_grid in H by exact AB. apply nth_error_firstn_some in H. rewrite Nat.sub_0_r, nth_error_skipn in H.
  apply nth_error_firstn_some in H. exact H.
Qed.
Lemma lookup_mapM {A B} (f : string * A -> res (string * B)) (g : string * A -> res B) :
  (forall x, f x = do v <- g x; Ok (fst x, v)) ->
  forall l r, mapM f l = Ok r -> forall c, match lookup c l with
    | Some a => exists b, lookup c r = Some b /\ g (c, a) = Ok b
    | None => lookup c r = None
    end.
Proof.
  intros F. induction l as [|[n a] l IH]; intros r H c; cbn in H; [assert (r = []) by congruence; subst r; reflexivity|].
  destruct (bind_inv _ _ _ H) as (y & H1 & H'). destruct (bind_inv _ _ _ H') as (ys & H2 & H3).
  assert (r = y :: ys) by congruence. subst r. rewrite F in H1. destruct (bind_inv _ _ _ H1) as (b & H4 & H5).
  assert (y = (n, b)) by (cbn in H5; congruence). subst y. cbn [lookup]. specialize (IH ys H2 c).
  destruct (String.eqb_spec c n) as [-> |N]; [exists b; auto|exact IH].
Qed.
