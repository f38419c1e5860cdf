(** Proofs about uncertainty estimates. *)
From Coq Require Import List String Reals Bool Arith ZArith Lra Lia Permutation.
From Verif Require Import Lib_Py M_Params M_IxData M_IxColumn M_IxUnc S_IxUnc P_IxData.
Import ListNotations.
Open Scope string_scope.
Local Notation length := List.length.

Lemma bind_ok {A B} (m : res A) (f : A -> res B) y : bind m f = Ok y ->
  exists a, m = Ok a /\ f a = Ok y.
Proof. destruct m; cbn; [eauto|discriminate]. Qed.
Tactic Notation "binv" hyp(H) ident(x) ident(E) := apply bind_ok in H; destruct H as (x & E & H).
Lemma Ok_inj {A} (a b : A) : Ok a = Ok b -> a = b.
Proof. congruence. Qed.

Lemma value_upd_same k v u p : value_of k (update k (v, u) p) = Ok v.
Proof. unfold value_of. rewrite lookup_update_eq. reflexivity. Qed.
Lemma value_upd_other k k' v p : k <> k' -> value_of k (update k' v p) = value_of k p.
Proof. intros H. unfold value_of. rewrite lookup_update_neq by exact H. reflexivity. Qed.

Definition with_params (p : csheet) (l : loaded) : loaded :=
  {| l_params := p; l_ions := l_ions l; l_valences := l_valences l; l_names := l_names l;
     l_time_mult := l_time_mult l; l_Cin := l_Cin l; l_units := l_units l |}.

Definition set_field (k : string) (y : R) (c : column) : column :=
  if String.eqb k "EBED" then with_EBED y c
  else if String.eqb k "L" then with_length y c
  else if String.eqb k "v" then with_velocity y c
  else if String.eqb k "Q" then with_capacity y c else c.
Definition tame (k : string) : Prop :=
  k = "EBED" \/ k = "L" \/ k = "v" \/ k = "Q" \/ k = "Ds" \/ k = "Dp" \/ k = "kL" \/ k = "Qf".

Lemma read_inv psdm l c : read_column psdm l = Ok c ->
  value_of "EBED" (l_params l) = Ok (EBED c) /\ value_of "L" (l_params l) = Ok (Lbed c) /\
  value_of "v" (l_params l) = Ok (vel c) /\ value_of "Q" (l_params l) = Ok (Qcap c).
Proof.
  unfold read_column. intros H.
  binv H a1 E1. binv H a2 E2. binv H a3 E3. binv H a4 E4. binv H a5 E5. binv H a6 E6.
  binv H a7 E7. binv H a8 E8. binv H a9 E9. binv H a10 E10. binv H a11 E11.
  destruct (negb _); [discriminate|]. apply Ok_inj in H. subst c. cbn. auto.
Qed.

Lemma read_param psdm l k y u c : tame k -> read_column psdm l = Ok c ->
  read_column psdm (with_params (update k (y, u) (l_params l)) l) = Ok (set_field k y c).
Proof.
  intros Hk H. unfold read_column in H.
  binv H a1 E1. binv H a2 E2. binv H a3 E3. binv H a4 E4. binv H a5 E5. binv H a6 E6.
  binv H a7 E7. binv H a8 E8. binv H a9 E9. binv H a10 E10. binv H a11 E11.
  destruct (negb _) eqn:Eg; [discriminate|]. apply Ok_inj in H. subst c.
  unfold read_column. cbn [with_params l_params l_ions l_names l_valences].
  destruct Hk as [->|[->|[->|[->|[->|[->|[->| ->]]]]]]];
    rewrite ?value_upd_same;
    repeat (rewrite value_upd_other by discriminate);
    rewrite ?E1, ?E3, ?E4, ?E5, ?E6, ?E10, ?E11; cbn [bind];
    destruct psdm; cbn [bind]; rewrite ?E2, ?E7, ?E8, ?E9; cbn [bind];
    rewrite Eg; try reflexivity.
  all: apply Ok_inj in E2; subst; reflexivity.
Qed.

Lemma scale_param_ok k x l v : value_of k (l_params l) = Ok v ->
  exists u, scale_param k x l = Ok (with_params (update k ((v * x)%R, u) (l_params l)) l).
Proof.
  unfold value_of, scale_param. destruct (lookup k (l_params l)) as [(w & u)|]; cbn; [|discriminate].
  intros H. apply Ok_inj in H. subst. eexists. reflexivity.
Qed.
Lemma scale_param_none k x l : lookup k (l_params l) = None -> scale_param k x l = Err KeyError.
Proof. unfold scale_param. intros ->. reflexivity. Qed.

(** [prepare] depends on the parameters only through the column. *)
Lemma prepare_params psdm l p tv r c' : prepare psdm l tv = Ok r ->
  read_column psdm (with_params p l) = Ok c' ->
  exists r', prepare psdm (with_params p l) tv = Ok r' /\ r_col r' = c' /\ same_schedule r r'.
Proof.
  intros H Hc. unfold prepare in H. binv H cin E1. binv H c E2. binv H last E3.
  destruct (_ && _)%bool eqn:Eg; [discriminate|]. apply Ok_inj in H.
  unfold prepare. cbn [with_params l_Cin l_names l_time_mult].
  rewrite E1, Hc. cbn [bind]. rewrite E3. cbn [bind]. rewrite Eg. eexists. split; [reflexivity|].
  subst r. cbn. repeat split.
Qed.
Lemma prepare_col psdm l tv r : prepare psdm l tv = Ok r -> read_column psdm l = Ok (r_col r).
Proof.
  intros H. unfold prepare in H. binv H cin E1. binv H c E2. binv H last E3.
  destruct (_ && _)%bool eqn:Eg; [discriminate|]. apply Ok_inj in H. subst r. exact E2.
Qed.

Lemma perturb_one psdm l tv r k v x : tame k -> prepare psdm l tv = Ok r ->
  value_of k (l_params l) = Ok v ->
  exists l' r', scale_param k x l = Ok l' /\ prepare psdm l' tv = Ok r' /\
    r_col r' = set_field k (v * x)%R (r_col r) /\ same_schedule r r'.
Proof.
  intros Hk H Hv. destruct (scale_param_ok k x l v Hv) as (u & E).
  destruct (prepare_params psdm l (update k ((v * x)%R, u) (l_params l)) tv r _ H
              (read_param psdm l k (v * x)%R u _ Hk (prepare_col _ _ _ _ H))) as (r' & E' & Ec & Es).
  eexists _, r'. split; [exact E|]. auto.
Qed.

(** ** Kxc and influent *)

Lemma nth_error_scale x rows i :
  nth_error (map (fun kr : string * ion => (fst kr, set_Kxc (i_Kxc (snd kr) * x)%R (snd kr))) rows) i
  = option_map (fun kr => (fst kr, set_Kxc (i_Kxc (snd kr) * x)%R (snd kr))) (nth_error rows i).
Proof. apply nth_error_map. Qed.

Lemma nth_error_update {A} k (v : A) d i : NoDup (keys d) -> mem_key k d = true ->
  nth_error (update k v d) i
  = match nth_error d i with
    | Some (k', v') => Some (k', if String.eqb k k' then v else v')
    | None => None
    end.
Proof.
  revert i. induction d as [|(k' & v') d IH]; intros i HN Hm; [discriminate|].
  cbn [update keys map fst] in *. inversion HN as [|? ? Hni HN']; subst.
  destruct (String.eqb_spec k k') as [->|Hne].
  - destruct i as [|i]; cbn; [rewrite String.eqb_refl; reflexivity|].
    destruct (nth_error d i) as [(k2 & v2)|] eqn:E; [|reflexivity].
    destruct (String.eqb_spec k' k2) as [->|]; [|reflexivity].
    exfalso. apply Hni. change k2 with (fst (k2, v2)). apply in_map. eapply nth_error_In, E.
  - destruct i as [|i]; cbn.
    + rewrite (proj2 (String.eqb_neq k k') Hne). reflexivity.
    + apply IH; [exact HN'|]. unfold mem_key in *. cbn [lookup] in Hm.
      rewrite (proj2 (String.eqb_neq k k') Hne) in Hm. exact Hm.
Qed.

Lemma keys_scaled x (rows : list (string * ion)) :
  keys (map (fun kr : string * ion => (fst kr, set_Kxc (i_Kxc (snd kr) * x)%R (snd kr))) rows) = keys rows.
Proof. unfold keys. rewrite map_map. apply map_ext. reflexivity. Qed.

Lemma lookup_mem {A} k (d : list (string * A)) : In k (keys d) -> exists v, lookup k d = Some v.
Proof.
  induction d as [|(k' & v) d IH]; cbn; [tauto|]. intros H.
  destruct (String.eqb_spec k k'); [eauto|]. apply IH. destruct H; [congruence|assumption].
Qed.
Lemma lookup_in {A} k v (d : list (string * A)) : lookup k d = Some v -> In k (keys d).
Proof.
  induction d as [|(k' & w) d IH]; cbn; [discriminate|].
  destruct (String.eqb_spec k k'); [auto|]. intros H. right. apply IH, H.
Qed.
Lemma lookup_nth_error {A} k v (d : list (string * A)) i : NoDup (keys d) ->
  lookup k d = Some v -> forall w, nth_error d i = Some (k, w) -> w = v.
Proof.
  revert i. induction d as [|(k' & w') d IH]; intros i HN; cbn [lookup]; [discriminate|].
  cbn in HN. inversion HN as [|? ? Hni HN']; subst.
  destruct (String.eqb_spec k k') as [->|Hne]; intros H w Hw.
  - destruct i as [|i]; cbn in Hw; [congruence|]. exfalso. apply Hni.
    change k' with (fst (k', w)). apply in_map. eapply nth_error_In, Hw.
  - destruct i as [|i]; cbn in Hw; [congruence|]. eapply IH; eassumption.
Qed.

Lemma scale_Kxc_nth x rows i : NoDup (keys rows) -> In "CHLORIDE" (keys rows) ->
  nth_error (scale_Kxc x rows) i
  = option_map (fun kr => (fst kr, set_Kxc (if String.eqb "CHLORIDE" (fst kr) then 1 else i_Kxc (snd kr) * x)%R
                                           (snd kr))) (nth_error rows i).
Proof.
  intros HN HI. unfold scale_Kxc.
  set (rows' := map _ rows).
  assert (HK : keys rows' = keys rows) by apply keys_scaled.
  destruct (lookup_mem "CHLORIDE" rows') as (r & Er); [rewrite HK; exact HI|]. rewrite Er.
  rewrite nth_error_update; [|rewrite HK; exact HN|unfold mem_key; rewrite Er; reflexivity].
  assert (X : nth_error rows' i = option_map (fun kr => (fst kr, set_Kxc (i_Kxc (snd kr) * x)%R (snd kr)))
                (nth_error rows i)) by apply nth_error_scale.
  rewrite X. destruct (nth_error rows i) as [(k & v)|] eqn:Ei; cbn [option_map fst snd]; [|reflexivity].
  destruct (String.eqb_spec "CHLORIDE" k) as [<-|]; [|reflexivity].
  do 2 f_equal. cbn [option_map fst snd] in X.
  rewrite <- (lookup_nth_error "CHLORIDE" r rows' i) with (w := set_Kxc (i_Kxc v * x)%R v);
    [reflexivity|rewrite HK; exact HN|exact Er|exact X].
Qed.
Lemma scale_Kxc_keys x rows : In "CHLORIDE" (keys rows) -> keys (scale_Kxc x rows) = keys rows.
Proof.
  intros HI. unfold scale_Kxc. destruct (lookup_mem "CHLORIDE"
    (map (fun kr : string * ion => (fst kr, set_Kxc (i_Kxc (snd kr) * x)%R (snd kr))) rows)) as (r & Er);
    [rewrite keys_scaled; exact HI|].
  rewrite Er. rewrite (keys_update_present _ _ _ _ Er). apply keys_scaled.
Qed.

Lemma read_rows psdm l c f : read_column psdm l = Ok c ->
  (forall i, row_fun (f (ion_rows (l_ions l))) i_kL i = row_fun (ion_rows (l_ions l)) i_kL i) ->
  (forall i, row_fun (f (ion_rows (l_ions l))) i_Ds i = row_fun (ion_rows (l_ions l)) i_Ds i) ->
  (forall i, row_fun (f (ion_rows (l_ions l))) i_Dp i = row_fun (ion_rows (l_ions l)) i_Dp i) ->
  exists c', read_column psdm (with_ions f l) = Ok c' /\
    NION c' = NION c /\ nr c' = nr c /\ nz c' = nz c /\ EBED c' = EBED c /\ EPOR c' = EPOR c /\
    Lbed c' = Lbed c /\ vel c' = vel c /\ rb c' = rb c /\ Qcap c' = Qcap c /\ val c' = val c /\
    (forall i, kL c' i = kL c i) /\ (forall i, Ds c' i = Ds c i) /\ (forall i, Dp c' i = Dp c i) /\
    forall i, Kxc c' i = row_fun (f (ion_rows (l_ions l))) i_Kxc i.
Proof.
  intros H H1 H2 H3. unfold read_column in *. cbn [with_ions l_params l_ions l_names l_valences].
  binv H a1 E1. binv H a2 E2. binv H a3 E3. binv H a4 E4. binv H a5 E5. binv H a6 E6.
  binv H a7 E7. binv H a8 E8. binv H a9 E9. binv H a10 E10. binv H a11 E11.
  destruct (negb _) eqn:Eg; [discriminate|]. apply Ok_inj in H. subst c.
  rewrite E1, E2, E3, E4, E5, E6, E7, E8, E9, E10, E11. cbn [bind has_kL has_Ds has_Dp ion_rows].
  try rewrite Eg. eexists. split; [reflexivity|]. cbn.
  repeat split; try assumption. intros i. destruct psdm; [apply H3|reflexivity].
Qed.

(** ** Bands *)

Lemma map2d_comm f : (forall u a b, f (f u a) b = f (f u b) a) ->
  forall U A B, map2d f (map2d f U A) B = map2d f (map2d f U B) A.
Proof.
  intros Hf.
  assert (H1 : forall u a b : list R,
    map (fun uv => f (fst uv) (snd uv)) (combine (map (fun uv => f (fst uv) (snd uv)) (combine u a)) b)
    = map (fun uv => f (fst uv) (snd uv)) (combine (map (fun uv => f (fst uv) (snd uv)) (combine u b)) a)).
  { induction u as [|x u IH]; intros [|y a] [|z b]; try reflexivity. cbn. rewrite Hf. f_equal. apply IH. }
  unfold map2d. induction U as [|x U IH]; intros [|y A] [|z B]; try reflexivity.
  cbn. rewrite H1. f_equal. apply IH.
Qed.

Lemma raise_comm U A B : raise_band (raise_band U A) B = raise_band (raise_band U B) A.
Proof.
  apply map2d_comm. intros u a b. unfold rltb.
  destruct (Rlt_dec u a), (Rlt_dec u b), (Rlt_dec a u), (Rlt_dec b u);
  repeat match goal with |- context [Rlt_dec ?x ?y] => destruct (Rlt_dec x y) end; lra.
Qed.
Lemma lower_comm U A B : lower_band (lower_band U A) B = lower_band (lower_band U B) A.
Proof.
  apply map2d_comm. intros u a b. unfold rltb.
  destruct (Rlt_dec u a), (Rlt_dec u b), (Rlt_dec a u), (Rlt_dec b u);
  repeat match goal with |- context [Rlt_dec ?x ?y] => destruct (Rlt_dec x y) end; lra.
Qed.

Lemma bands_perm integrate psdm copy tv ts1 ts2 : Permutation ts1 ts2 -> forall up lo r,
  bands integrate psdm copy tv ts1 up lo = Ok r -> bands integrate psdm copy tv ts2 up lo = Ok r.
Proof.
  induction 1 as [|t l1 l2 HP IH|t1 t2 l|l1 l2 l3 HP1 IH1 HP2 IH2]; intros up lo r H.
  - exact H.
  - cbn [bands] in *. binv H df E. rewrite E. cbn [bind]. apply IH, H.
  - cbn [bands] in *. binv H df E. binv H df' E'. rewrite E'. cbn [bind]. rewrite E. cbn [bind].
    rewrite raise_comm, lower_comm. exact H.
  - apply IH2, IH1, H.
Qed.

(** Shapes. *)
Definition shape (n m : nat) (df : list (list R)) : Prop :=
  length df = n /\ forall i, (i < n)%nat -> length (nth i df []) = m.

Lemma map2d_row f a b i : length a = length b ->
  nth i (map2d f a b) [] = map (fun uv => f (fst uv) (snd uv)) (combine (nth i a []) (nth i b [])).
Proof.
  intros H. unfold map2d.
  set (g := fun xy : list R * list R => map (fun uv => f (fst uv) (snd uv)) (combine (fst xy) (snd xy))).
  change (@nil R) with (g ([], [])) at 1. rewrite (map_nth g), combine_nth by exact H. reflexivity.
Qed.
Lemma map2d_shape f n m a b : shape n m a -> shape n m b -> shape n m (map2d f a b).
Proof.
  intros (A1 & A2) (B1 & B2). split.
  - unfold map2d. rewrite map_length, combine_length. lia.
  - intros i Hi. rewrite map2d_row by lia.
    rewrite map_length, combine_length, A2, B2 by exact Hi. lia.
Qed.
Lemma map2d_entry f n m a b i t : shape n m a -> shape n m b -> (i < n)%nat -> (t < m)%nat ->
  entry i t (map2d f a b) = f (entry i t a) (entry i t b).
Proof.
  intros (A1 & A2) (B1 & B2) Hi Ht. unfold entry. rewrite map2d_row by lia.
  set (g := fun uv : R * R => f (fst uv) (snd uv)).
  rewrite (nth_indep _ 0%R (g (0%R, 0%R))).
  - rewrite (map_nth g), combine_nth; [reflexivity|]. rewrite A2, B2 by exact Hi. reflexivity.
  - rewrite map_length, combine_length, A2, B2 by exact Hi. lia.
Qed.

Lemma bands_extremes integrate psdm copy tv n m : forall ts up lo U L,
  bands integrate psdm copy tv ts up lo = Ok (U, L) ->
  shape n m up -> shape n m lo ->
  (forall t df, In t ts -> case integrate psdm copy tv t = Ok df -> shape n m df) ->
  exists cases, Forall2 (fun t df => case integrate psdm copy tv t = Ok df) ts cases /\
  forall i t, (i < n)%nat -> (t < m)%nat ->
    largest (entry i t U) (entry i t up :: map (entry i t) cases) /\
    smallest (entry i t L) (entry i t lo :: map (entry i t) cases).
Proof.
  induction ts as [|t ts IH]; intros up lo U L H Hu Hl Hs; cbn [bands] in H.
  - apply Ok_inj in H. inversion H. subst. exists []. split; [constructor|]. intros i t Hi Ht. cbn.
    split; (split; [left; reflexivity|]); intros y [<-|[]]; lra.
  - binv H df E. assert (Hd := Hs t df (or_introl eq_refl) E).
    destruct (IH _ _ _ _ H (map2d_shape _ n m up df Hu Hd) (map2d_shape _ n m lo df Hl Hd)
               (fun t' df' Hin => Hs t' df' (or_intror Hin))) as (cases & HF & HX).
    exists (df :: cases). split; [constructor; assumption|]. intros i k Hi Hk.
    destruct (HX i k Hi Hk) as ((P1 & P2) & (Q1 & Q2)).
    unfold raise_band in P1, P2. rewrite (map2d_entry _ n m) in P1 by assumption.
    rewrite (map2d_entry _ n m) in P2 by assumption.
    unfold lower_band in Q1, Q2. rewrite (map2d_entry _ n m) in Q1 by assumption.
    rewrite (map2d_entry _ n m) in Q2 by assumption.
    set (W := entry i k U) in *. set (V := entry i k L) in *.
    unfold rltb in *. cbn [map] in *. split.
    + split.
      * destruct P1 as [P1|P1]; [|right; right; exact P1].
        destruct (Rlt_dec (entry i k up) (entry i k df)); rewrite <- P1; [right; left|left]; reflexivity.
      * assert (X := P2 _ (or_introl eq_refl)). intros y [<-|[<-|Hy]].
        -- destruct (Rlt_dec (entry i k up) (entry i k df)); lra.
        -- destruct (Rlt_dec (entry i k up) (entry i k df)); lra.
        -- apply P2. right. exact Hy.
    + split.
      * destruct Q1 as [Q1|Q1]; [|right; right; exact Q1].
        destruct (Rlt_dec (entry i k df) (entry i k lo)); rewrite <- Q1; [right; left|left]; reflexivity.
      * assert (X := Q2 _ (or_introl eq_refl)). intros y [<-|[<-|Hy]].
        -- destruct (Rlt_dec (entry i k df) (entry i k lo)); lra.
        -- destruct (Rlt_dec (entry i k df) (entry i k lo)); lra.
        -- apply Q2. right. exact Hy.
Qed.

Lemma mapM_length {A B} (f : A -> res B) l r : mapM f l = Ok r -> length r = length l.
Proof.
  revert r. induction l as [|x l IH]; intros r H; cbn in H.
  - apply Ok_inj in H. subst. reflexivity.
  - binv H y E. binv H ys E'. apply Ok_inj in H. subst. cbn. f_equal. apply IH, E'.
Qed.
Lemma mapM_nth {A B} (f : A -> res B) l r : mapM f l = Ok r -> forall i a d,
  nth_error l i = Some a -> f a = Ok (nth i r d).
Proof.
  revert r. induction l as [|x l IH]; intros r H i a d Ha; [destruct i; discriminate|]. cbn in H.
  binv H y E. binv H ys E'. apply Ok_inj in H. subst.
  destruct i as [|i]; cbn in *; [congruence|]. apply (IH _ E' _ _ _ Ha).
Qed.

Lemma convert_shape rows outlet df n : convert_all rows outlet = Ok df -> length outlet = n ->
  length df = length rows /\ (length rows <= n)%nat /\
  forall i, (i < length rows)%nat -> length (nth i df []) = length (nth i outlet []).
Proof.
  unfold convert_all. intros H Hn.
  assert (HL := mapM_length _ _ _ H). rewrite combine_length, seq_length, Nat.min_id in HL.
  assert (X : forall i, (i < length rows)%nat -> (i < n)%nat /\ length (nth i df []) = length (nth i outlet [])).
  { intros i Hi.
    assert (Hx : exists kr, nth_error (combine (seq 0 (length rows)) rows) i = Some (i, kr)).
    { exists (nth i rows ("", new_row 0%R)).
      rewrite (nth_error_nth' _ (0%nat, ("", new_row 0%R))) by (rewrite combine_length, seq_length; lia).
      rewrite combine_nth by (rewrite seq_length; reflexivity). rewrite seq_nth by exact Hi. reflexivity. }
    destruct Hx as (kr & Hx). assert (E := mapM_nth _ _ _ H i _ [] Hx). cbn [fst snd] in E.
    destruct (nth_error outlet i) as [h|] eqn:Eo; [|discriminate]. apply Ok_inj in E.
    rewrite <- E. unfold conv_iex_u. rewrite map_length.
    rewrite (nth_error_nth outlet i [] Eo). split; [|reflexivity].
    rewrite <- Hn. apply nth_error_Some. congruence. }
  split; [exact HL|]. split.
  - destruct (length rows) as [|k] eqn:Er; [lia|]. destruct (X k ltac:(lia)). lia.
  - intros i Hi. apply X, Hi.
Qed.

Lemma read_NION psdm l c : read_column psdm l = Ok c -> NION c = length (l_names l).
Proof.
  unfold read_column. intros H.
  binv H a1 E1. binv H a2 E2. binv H a3 E3. binv H a4 E4. binv H a5 E5. binv H a6 E6.
  binv H a7 E7. binv H a8 E8. binv H a9 E9. binv H a10 E10. binv H a11 E11.
  destruct (negb _); [discriminate|]. apply Ok_inj in H. subst c. reflexivity.
Qed.

Lemma prepare_report psdm l tv r : prepare psdm l tv = Ok r -> (exists t, In t tv /\ t <> 0%R) ->
  r_report r = Some (map (fun t => (t * l_time_mult l)%R) tv).
Proof.
  intros H (t & Hin & Hne). unfold prepare in H. binv H cin E1. binv H c E2. binv H last E3.
  assert (E : existsb (fun t => negb (reqb t 0)) tv = true).
  { apply existsb_exists. exists t. split; [exact Hin|]. unfold reqb.
    destruct (Req_EM_T t 0); [contradiction|reflexivity]. }
  rewrite E in H. cbn [andb] in H. destruct (existsb _ tv); [discriminate|].
  apply Ok_inj in H. subst r. reflexivity.
Qed.

Lemma simulate_shape integrate psdm l tv df : reports integrate -> (exists t, In t tv /\ t <> 0%R) ->
  (length (l_names l) <= length (ion_rows (l_ions l)))%nat ->
  simulate integrate psdm l tv = Ok df -> shape (length (l_names l)) (length tv) df.
Proof.
  intros HR Hnz Hlen H. unfold simulate in H. binv H r E.
  destruct (HR r) as (R1 & R2). assert (EN := read_NION _ _ _ (prepare_col _ _ _ _ E)).
  destruct (convert_shape _ _ _ _ H R1) as (C1 & C2 & C3). split; [lia|].
  intros i Hi. rewrite C3 by lia. rewrite (R2 _ (prepare_report _ _ _ _ E Hnz)) by lia. apply map_length.
Qed.

Lemma scale_param_keeps k x l l' : scale_param k x l = Ok l' ->
  l_names l' = l_names l /\ l_ions l' = l_ions l.
Proof.
  unfold scale_param. destruct (lookup k (l_params l)) as [(v & u)|]; [|discriminate].
  intros H. apply Ok_inj in H. subst l'. split; reflexivity.
Qed.
Lemma update_length {A} k (v : A) d : (length d <= length (update k v d))%nat.
Proof.
  induction d as [|(k' & w) d IH]; cbn; [lia|]. destruct (String.eqb k k'); cbn; lia.
Qed.
Lemma perturb_keeps key x l l' : perturb key x l = Ok l' ->
  l_names l' = l_names l /\ (length (ion_rows (l_ions l)) <= length (ion_rows (l_ions l')))%nat.
Proof.
  unfold perturb.
  assert (S1 : forall k, scale_param k x l = Ok l' ->
    l_names l' = l_names l /\ (length (ion_rows (l_ions l)) <= length (ion_rows (l_ions l')))%nat).
  { intros k H. destruct (scale_param_keeps _ _ _ _ H) as (-> & ->). split; reflexivity. }
  destruct (String.eqb key "capacity").
  { intros H. binv H l1 E. destruct (scale_param_keeps _ _ _ _ E) as (<- & <-).
    destruct (scale_param_keeps _ _ _ _ H) as (-> & ->). split; reflexivity. }
  repeat (destruct (String.eqb key _); [solve [apply S1]|]).
  destruct (String.eqb key "c0").
  { intros H. apply Ok_inj in H. subst l'. split; reflexivity. }
  destruct (String.eqb key "Kxc"); intros H; apply Ok_inj in H; subst l'; [|split; reflexivity].
  split; [reflexivity|]. cbn [with_ions l_ions ion_rows]. unfold scale_Kxc.
  set (rows' := map _ (ion_rows (l_ions l))).
  assert (E : length rows' = length (ion_rows (l_ions l))) by apply map_length.
  rewrite <- E. destruct (lookup "CHLORIDE" rows'); [apply update_length|].
  rewrite app_length. lia.
Qed.

(** ** Reporting times *)

Lemma arange12_in stop t : In t (arange12 stop) <-> exists k : nat, t = (12 * INR k)%R /\ (t < stop)%R.
Proof.
  unfold arange12. set (z := Int_part (- (stop / 12))).
  assert (B := base_Int_part (- (stop / 12))). fold z in B.
  rewrite in_map_iff. split.
  - intros (k & <- & Hk). exists k. split; [reflexivity|]. apply in_seq in Hk.
    assert (Z1 : (Z.of_nat k < - z)%Z) by lia. assert (Z2 : (Z.of_nat k + 1 <= - z)%Z) by lia.
    apply IZR_le in Z2. rewrite plus_IZR, opp_IZR, <- INR_IZR_INZ in Z2. lra.
  - intros (k & -> & Hs). exists k. split; [reflexivity|]. apply in_seq.
    assert (Z1 : (IZR (Z.of_nat k) < IZR (- z))%R); [rewrite opp_IZR, <- INR_IZR_INZ; lra|].
    apply lt_IZR in Z1. lia.
Qed.
