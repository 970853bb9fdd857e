From Coq Require Import String Ascii.
From Coq Require Import List Arith Lia Bool ZArith QArith Reals.
From Verif Require Import Base M_Structure M_Util M_Strings M_Format Spec_Ragged Spec_Schema L_Base L_Dict L_Ragged L_Schema.
Import ListNotations.
Open Scope list_scope.
Open Scope nat_scope.

(** Block [v] of a row. *)
Definition cellv (ws : list nat) (row : list Z) (v : nat) : list Z :=
  map (fun i => nth (list_sum (firstn v ws) + i) row 0%Z) (seq 0 (nth v ws 0)).

Lemma cellv_length : forall ws row v, length (cellv ws row v) = nth v ws 0.
Proof. intros. unfold cellv. now rewrite map_length, seq_length. Qed.
Lemma cellv_nth : forall ws row v i, i < nth v ws 0 -> nth i (cellv ws row v) 0%Z = nth (list_sum (firstn v ws) + i) row 0%Z.
Proof.
  intros. unfold cellv. now rewrite nth_map_seq.
Qed.
Lemma cellv_slice : forall ws row v, length row = list_sum ws -> v < length ws ->
  slice row (list_sum (firstn v ws)) (list_sum (firstn (v + 1) ws)) = cellv ws row v.
Proof.
  intros ws row v L H. rewrite Nat.add_1_r. rewrite sum_firstn_S by auto. unfold cellv. apply slice_map.
  rewrite L. rewrite <- sum_firstn_S by auto. apply sum_firstn_all.
Qed.
Lemma cellv_zero : forall ws v, cellv ws (repeat 0%Z (list_sum ws)) v = repeat 0%Z (nth v ws 0).
Proof.
  intros. unfold cellv. generalize (list_sum (firstn v ws)). intros s. generalize 0 at 1. induction (nth v ws 0) as [|n IH]; intros k; auto.
  cbn [seq map repeat]. f_equal; [|apply IH]. generalize (s + k), (list_sum ws). intros j m. revert j. induction m; destruct j; cbn; auto.
Qed.

Lemma row_ext : forall ws a b, length a = list_sum ws -> length b = list_sum ws ->
  (forall v, v < length ws -> cellv ws a v = cellv ws b v) -> a = b.
Proof.
  intros ws a b A B H. apply nth_ext with (d := 0%Z) (d' := 0%Z); [congruence|]. intros p L. rewrite A in L.
  apply owns_exists in L. destruct L as (v & V & P). specialize (H v V).
  replace p with (list_sum (firstn v ws) + (p - list_sum (firstn v ws))) by lia.
  rewrite <- !cellv_nth by lia. now rewrite H.
Qed.

Lemma upd_len : forall A (l : list A) i x, length (upd l i x) = length l.
Proof. induction l; destruct i; cbn; auto. Qed.
Lemma upd_nth : forall A (l : list A) i x j d, i < length l -> nth j (upd l i x) d = if j =? i then x else nth j l d.
Proof.
  induction l as [|a l IH]; intros i x j d H; cbn in H; [lia|]. destruct i, j; cbn; auto. apply IH. lia.
Qed.

(** Writing inside block [v]. *)
Lemma put_cell : forall ws row v i x, length row = list_sum ws -> v < length ws -> i < nth v ws 0 ->
  exists row', put IndexError row (list_sum (firstn v ws) + i) x = Ok row' /\ length row' = list_sum ws /\
    forall u, u < length ws -> cellv ws row' u = if u =? v then upd (cellv ws row v) i x else cellv ws row u.
Proof.
  intros ws row v i x L V I. assert (P : list_sum (firstn v ws) + i < length row).
  { rewrite L. apply Nat.lt_le_trans with (list_sum (firstn (S v) ws)); [rewrite sum_firstn_S by auto; lia|apply sum_firstn_all]. }
  exists (upd row (list_sum (firstn v ws) + i) x). unfold put. rewrite (proj2 (Nat.ltb_lt _ _) P). split; auto. split; [now rewrite upd_len|].
  intros u U. apply nth_ext with (d := 0%Z) (d' := 0%Z).
  - destruct (Nat.eqb_spec u v) as [->|]; rewrite ?upd_len, !cellv_length; auto.
  - intros j J. rewrite cellv_length in J. rewrite cellv_nth, upd_nth by auto. destruct (Nat.eqb_spec u v) as [->|N].
    + rewrite upd_nth by now rewrite cellv_length. rewrite cellv_nth by auto.
      destruct (Nat.eqb_spec j i) as [->|M]; [now rewrite Nat.eqb_refl|]. destruct (Nat.eqb_spec (list_sum (firstn v ws) + j) (list_sum (firstn v ws) + i)); auto. lia.
    + rewrite cellv_nth by auto. destruct (Nat.eqb_spec (list_sum (firstn u ws) + j) (list_sum (firstn v ws) + i)) as [E|E]; auto.
      exfalso. apply N. apply (owns_unique ws u v (list_sum (firstn u ws) + j)); split; auto; lia.
Qed.

Section Schema.
Variable sc : schema.
Hypothesis SO : schema_ok sc.
Let ws := widths sc.
Let V := length (sc_names sc).
Let name v := nth v (sc_names sc) EmptyString.

Lemma ws_len : length ws = V.
Proof. unfold ws, widths. now rewrite map_length. Qed.
Lemma ws_nth : forall v, v < V -> nth v ws 0 = feature_width sc (name v).
Proof.
  intros v H. unfold ws, widths. rewrite nth_indep with (d' := feature_width sc EmptyString) by (rewrite map_length; auto).
  now rewrite map_nth.
Qed.
Lemma index_pos : forall n v, dget (sc_index sc) n = Some v -> v < V /\ name v = n.
Proof.
  intros n v H. apply (so_pos _ SO) in H. split; [apply nth_error_Some; congruence|]. unfold name. now apply nth_error_nth.
Qed.

(** The position at which a categorical value is stored. *)
Definition cat_pos n s := match dget (sc_cat_index sc) n with Some ix => match dget ix s with Some i => i | None => 0 end | None => 0 end.
(** What a legal entry leaves in its block. *)
Definition put_value n (jv : jval) (c : list Z) : list Z :=
  match legal_value sc n jv with
  | Some (JStr s) => upd c (cat_pos n s) 1%Z
  | Some (JInt z) => match dget (sc_ranges sc) n with Some (lo, hi) => [int8 (z - lo); int8 (hi - z)] | None => c end
  | _ => c
  end.

(** The exception an entry causes, if any. *)
Definition entry_error n (jv : jval) : option exn :=
  match dget (sc_types sc) n with
  | None => None
  | Some Categorical => match jv with JList _ | JDict => Some TypeError | _ => None end
  | Some Ordinal => match py_int jv with Raise ValueError => None | Raise e => Some e | Ok _ => None end
  end.

Lemma import_cell_spec : forall row n jv, length row = list_sum ws ->
  match entry_error n jv with
  | Some e => import_cell sc row (n, jv) = Raise e
  | None => exists row', import_cell sc row (n, jv) = Ok row' /\ length row' = list_sum ws /\
      (legal_value sc n jv = None -> row' = row) /\
      forall u, u < V -> cellv ws row' u = match dget (sc_index sc) n with
                                         | Some v => if u =? v then put_value n jv (cellv ws row u) else cellv ws row u
                                         | None => cellv ws row u end
  end.
Proof.
  intros row n jv L. unfold import_cell, entry_error. destruct (dget (sc_index sc) n) as [v|] eqn:IX.
  - destruct (index_pos n v IX) as (Hv & Nv).
    assert (In n (sc_names sc)) as NI by (apply (so_index _ SO); eauto).
    destruct (proj1 (so_typed _ SO n) NI) as (t & T). rewrite T.
    assert (G : get IndexError (sc_ri sc) v = Ok (list_sum (firstn v ws))).
    { rewrite (so_ri _ SO). apply mri_get. fold ws. rewrite ws_len. lia. }
    rewrite G. cbn [bind]. unfold dget_. rewrite T. cbn [bind].
    assert (WV : nth v ws 0 = feature_width sc n) by (rewrite ws_nth by auto; now rewrite Nv).
    unfold put_value, legal_value. rewrite T. destruct t.
    + destruct (so_cat _ SO n T) as (vs & ix & CV & CI & IXS & IXN). unfold dget_. rewrite CI. cbn [bind]. rewrite CV.
      unfold feature_width in WV. rewrite T, CV in WV.
      unfold write_categorical. destruct jv; cbn [py_index]; try reflexivity;
        try (eexists; split; [reflexivity|]; split; [auto|]; split; [auto|]; intros u _; destruct (u =? v); reflexivity).
      unfold dget_. destruct (in_dec string_dec s vs) as [I|I].
      * destruct (proj1 (IXS s) I) as (i & D). rewrite D. cbn [bind].
        assert (LI : i < nth v ws 0) by (rewrite WV; apply nth_error_Some; rewrite (IXN _ _ D); discriminate).
        destruct (put_cell ws row v i 1%Z L) as (row' & P & L' & C); auto; [now rewrite ws_len|].
        rewrite P. cbn [bind]. exists row'. split; auto. split; auto. split; [discriminate|]. intros u U. rewrite C by now rewrite ws_len.
        unfold cat_pos. rewrite CI, D. destruct (Nat.eqb_spec u v) as [->|]; auto.
      * assert (D : dget ix s = None).
        { destruct (dget ix s) eqn:D; auto. exfalso. apply I. apply IXS. eauto. }
        rewrite D. cbn [bind]. eexists. split; [reflexivity|]. split; auto. split; auto. intros u _. destruct (u =? v); auto.
    + destruct (so_ord _ SO n T) as (lo & hi & RG & LH). unfold dget_. rewrite RG. cbn [bind].
      unfold feature_width in WV. rewrite T in WV.
      unfold write_ordinal. destruct (py_int jv) as [z|e] eqn:PI.
      * cbn [fst snd]. destruct (Z.ltb_spec z lo) as [A|A]; cbn [orb].
        { replace (lo <=? z)%Z with false by (symmetry; apply Z.leb_gt; auto). cbn [andb bind].
          eexists. split; [reflexivity|]. split; auto. split; auto. intros u _. destruct (u =? v); auto. }
        replace (lo <=? z)%Z with true by (symmetry; apply Z.leb_le; auto).
        destruct (Z.ltb_spec hi z) as [B|B].
        { replace (z <=? hi)%Z with false by (symmetry; apply Z.leb_gt; auto). cbn [andb bind].
          eexists. split; [reflexivity|]. split; auto. split; auto. intros u _. destruct (u =? v); auto. }
        replace (z <=? hi)%Z with true by (symmetry; apply Z.leb_le; auto). cbn [andb].
        assert (HV' : v < length ws) by now rewrite ws_len.
        destruct (put_cell ws row v 0 (int8 (z - lo)) L) as (r1 & P1 & L1 & C1); auto; [lia|]. rewrite P1. cbn [bind].
        destruct (put_cell ws r1 v 1 (int8 (hi - z)) L1) as (r2 & P2 & L2 & C2); auto; [lia|]. rewrite P2. cbn [bind].
        exists r2. split; auto. split; auto. split; [discriminate|]. intros u U. rewrite C2, !C1 by (rewrite ?ws_len; auto). rewrite Nat.eqb_refl.
        destruct (Nat.eqb_spec u v) as [->|]; auto.
        assert (CL := cellv_length ws row v). rewrite WV in CL. destruct (cellv ws row v) as [|a [|b [|c l]]]; try discriminate. reflexivity.
      * destruct e; try reflexivity. cbn [bind]. eexists. split; [reflexivity|]. split; auto. split; auto. intros u _. destruct (u =? v); auto.
  - assert (T : dget (sc_types sc) n = None).
    { destruct (dget (sc_types sc) n) eqn:T; auto. exfalso. assert (I : In n (sc_names sc)) by (apply (so_typed _ SO); eauto).
      apply (so_index _ SO) in I. destruct I as (p & I). congruence. }
    rewrite T. exists row. split; auto.
Qed.

(** A block after the import of a whole row. *)
Definition encode n jv : list Z := put_value n jv (repeat 0%Z (feature_width sc n)).
Definition final_cell (entries : jrow) (v : nat) : list Z :=
  match dget (sc_index sc) (name v), dget entries (name v) with
  | Some u, Some jv => if u =? v then encode (name v) jv else repeat 0%Z (nth v ws 0)
  | _, _ => repeat 0%Z (nth v ws 0)
  end.

Lemma dget_snoc : forall A (d : sdict A) n x k, ~ In n (map fst d) -> dget (d ++ [(n, x)]) k = if String.eqb k n then Some x else dget d k.
Proof.
  induction d as [|(a, b) d IH]; intros n x k H; cbn in *; [destruct (String.eqb k n); auto|].
  destruct (String.eqb_spec k a) as [->|N].
  - destruct (String.eqb_spec a n); auto. exfalso. auto.
  - apply IH. tauto.
Qed.

Lemma import_row_ok : forall entries, keys_once entries -> (forall n jv, In (n, jv) entries -> entry_error n jv = None) ->
  exists row, foldM (import_cell sc) entries (repeat 0%Z (list_sum ws)) = Ok row /\ length row = list_sum ws /\
    forall v, v < V -> cellv ws row v = final_cell entries v.
Proof.
  induction entries as [|(n, jv) entries IH] using rev_ind; intros ND OKS.
  - exists (repeat 0%Z (list_sum ws)). split; auto. split; [apply repeat_length|]. intros v Hv. rewrite cellv_zero. unfold final_cell. cbn [dget].
    destruct (dget (sc_index sc) (name v)); auto.
  - unfold keys_once in ND. rewrite map_app in ND. cbn [map fst] in ND. apply NoDup_remove in ND. rewrite app_nil_r in ND. destruct ND as [ND NI].
    destruct IH as (row & E & L & C); auto; [intros; apply OKS; apply in_or_app; auto|].
    assert (EE := OKS n jv). rewrite in_app_iff in EE. specialize (EE (or_intror (or_introl eq_refl))).
    assert (S := import_cell_spec row n jv L). rewrite EE in S. destruct S as (row' & E' & L' & _ & C').
    exists row'. split; [rewrite foldM_app, E; cbn [bind foldM]; rewrite E'; reflexivity|]. split; auto.
    intros v Hv. rewrite C' by auto. unfold final_cell. rewrite dget_snoc by auto.
    destruct (String.eqb_spec (name v) n) as [Q|Q].
    + rewrite Q. destruct (dget (sc_index sc) n) as [u|] eqn:I.
      * rewrite (Nat.eqb_sym u v). destruct (Nat.eqb_spec v u) as [<-|N].
        -- rewrite C by auto. unfold final_cell. rewrite Q, I. rewrite (proj1 (dget_None _ entries n) NI). unfold encode. rewrite ws_nth by auto. now rewrite Q.
        -- rewrite C by auto. unfold final_cell. rewrite Q, I. rewrite (proj1 (dget_None _ entries n) NI). auto.
      * rewrite C by auto. unfold final_cell. now rewrite Q, I.
    + destruct (dget (sc_index sc) n) as [u|] eqn:I; [|apply C; auto].
      destruct (Nat.eqb_spec v u) as [<-|N]; [|apply C; auto]. exfalso. apply index_pos in I. apply Q. tauto.
Qed.

Lemma import_row_error : forall entries row, length row = list_sum ws -> (exists n jv, In (n, jv) entries /\ entry_error n jv <> None) ->
  exists e, foldM (import_cell sc) entries row = Raise e.
Proof.
  induction entries as [|(n, jv) entries IH]; intros row L (m & x & I & E); [destruct I|]. cbn [foldM].
  assert (S := import_cell_spec row n jv L). destruct (entry_error n jv) as [e|] eqn:EE.
  - rewrite S. cbn. eauto.
  - destruct S as (row' & -> & L' & _). cbn [bind]. apply IH; auto. destruct I as [I|I]; [injection I as <- <-; congruence|eauto].
Qed.

(** Illegal values never change a row. *)
Lemma import_row_filter : forall entries row, length row = list_sum ws -> (forall n jv, In (n, jv) entries -> entry_error n jv = None) ->
  foldM (import_cell sc) entries row =
  foldM (import_cell sc) (filter (fun '(n, jv) => match legal_value sc n jv with Some _ => true | None => false end) entries) row.
Proof.
  induction entries as [|(n, jv) entries IH]; intros row L OKS; auto. cbn [filter foldM].
  assert (S := import_cell_spec row n jv L). rewrite (OKS n jv (or_introl eq_refl)) in S. destruct S as (row' & E & L' & U & _).
  rewrite E. cbn [bind]. destruct (legal_value sc n jv) eqn:LV.
  - cbn [foldM]. rewrite E. cbn [bind]. apply IH; auto. intros; apply OKS; now right.
  - rewrite (U eq_refl). apply IH; auto. intros; apply OKS; now right.
Qed.

Lemma tame_ok : forall n jv, tame jv -> entry_error n jv = None.
Proof.
  intros n jv T. unfold entry_error. destruct (dget (sc_types sc) n) as [[]|]; auto; destruct jv; cbn in *; tauto || auto. destruct (int_of_str s); auto.
Qed.

Lemma legal_idem : forall n jv x, legal_value sc n jv = Some x -> legal_value sc n x = Some x.
Proof.
  intros n jv x. unfold legal_value. destruct (dget (sc_types sc) n) as [[]|]; [| |discriminate].
  - destruct jv; try discriminate. destruct (dget (sc_cat_values sc) n); [|discriminate]. destruct (in_dec string_dec s l) eqn:I; [|discriminate].
    intros E. injection E as <-. rewrite I. auto.
  - destruct (py_int jv); [|discriminate]. destruct (dget (sc_ranges sc) n) as [(lo, hi)|]; [|discriminate].
    destruct ((lo <=? a)%Z && (a <=? hi)%Z) eqn:B; [|discriminate]. intros E. injection E as <-. cbn [py_int]. rewrite B. auto.
Qed.
Lemma legal_tame : forall n jv x, legal_value sc n jv = Some x -> tame x.
Proof.
  intros n jv x. unfold legal_value. destruct (dget (sc_types sc) n) as [[]|]; [| |discriminate].
  - destruct jv; try discriminate. destruct (dget (sc_cat_values sc) n); [|discriminate]. destruct (in_dec string_dec s l); [|discriminate].
    intros E. injection E as <-. exact Logic.I.
  - destruct (py_int jv); [|discriminate]. destruct (dget (sc_ranges sc) n) as [(lo, hi)|]; [|discriminate].
    destruct ((lo <=? a)%Z && (a <=? hi)%Z); [|discriminate]. intros E. injection E as <-. exact Logic.I.
Qed.
Lemma encode_legal : forall n jv, encode n jv = match legal_value sc n jv with Some x => encode n x | None => repeat 0%Z (feature_width sc n) end.
Proof.
  intros. unfold encode, put_value. destruct (legal_value sc n jv) as [x|] eqn:E; auto. now rewrite (legal_idem _ _ _ E).
Qed.

(** Decoding. *)
Definition decode n (c : list Z) : result (option jval) :=
  if forallb (Z.eqb 0) c then Ok None
  else
    t <- dget_ (sc_types sc) n ;;
    value <- match t with
             | Categorical =>
               _ <- assert_ (Z.eqb (zsum c) 1) ;;
               values <- dget_ (sc_cat_values sc) n ;;
               i <- zargmax c ;;
               s <- get IndexError values i ;; Ok (JStr s)
             | Ordinal =>
               min_max <- dget_ (sc_ranges sc) n ;;
               _ <- assert_ (Z.eqb (zsum c) (snd min_max - fst min_max)) ;;
               c <- get IndexError c 0 ;; Ok (JInt (c + fst min_max))
             end ;;
    Ok (Some value).

Lemma export_cell_decode : forall row acc v, length row = list_sum ws -> v < V ->
  export_cell sc row acc (v, name v) =
  (o <- decode (name v) (cellv ws row v) ;; Ok (match o with None => acc | Some x => dset acc (name v) x end)).
Proof.
  intros row acc v L H. unfold export_cell. rewrite (so_ri _ SO). fold ws. rewrite !mri_get by (rewrite ws_len; lia). cbn [bind].
  rewrite cellv_slice by (auto; rewrite ws_len; auto). unfold decode. destruct (forallb (Z.eqb 0) (cellv ws row v)); auto.
  destruct (dget_ (sc_types sc) (name v)) as [[]|]; auto; cbn [bind].
  - destruct (assert_ (zsum (cellv ws row v) =? 1)%Z); auto. cbn [bind]. destruct (dget_ (sc_cat_values sc) (name v)); auto. cbn [bind].
    destruct (zargmax (cellv ws row v)); auto. cbn [bind]. destruct (get IndexError a0 a1); auto.
  - destruct (dget_ (sc_ranges sc) (name v)); auto. cbn [bind].
    destruct (assert_ (zsum (cellv ws row v) =? snd a - fst a)%Z); auto. cbn [bind].
    destruct (get IndexError (cellv ws row v) 0); auto.
Qed.

Lemma combine_names : forall v n, In (v, n) (combine (seq 0 V) (sc_names sc)) -> v < V /\ n = name v.
Proof.
  intros v n I. apply In_nth with (d := (0, EmptyString)) in I. destruct I as (k & K & E). rewrite combine_length, seq_length in K. fold V in K.
  rewrite combine_nth in E by now rewrite seq_length. injection E as E1 E2. rewrite seq_nth in E1 by lia. unfold name. subst. split; auto. lia.
Qed.

(** The exported dict, from a decoding of each block. *)
Lemma export_fold : forall row d, length row = list_sum ws ->
  (forall v, v < V -> decode (name v) (cellv ws row v) = Ok (d v)) ->
  (forall v x, v < V -> d v = Some x -> dget (sc_index sc) (name v) = Some v) ->
  exists out, foldM (export_cell sc row) (combine (seq 0 V) (sc_names sc)) [] = Ok out /\ keys_once out /\
    forall n, dget out n = match dget (sc_index sc) n with Some v => d v | None => None end.
Proof.
  intros row d L D U.
  set (g := fun acc '(v, n) => match d v with None => acc | Some x => dset acc n x end : jrow).
  assert (E : foldM (export_cell sc row) (combine (seq 0 V) (sc_names sc)) [] = Ok (fold_left g (combine (seq 0 V) (sc_names sc)) [])).
  { apply foldM_Ok. intros acc (v, n) I. apply combine_names in I. destruct I as (Hv & ->). rewrite export_cell_decode by auto.
    rewrite D by auto. reflexivity. }
  exists (fold_left g (combine (seq 0 V) (sc_names sc)) []). split; auto. clear E.
  assert (P : forall k, k <= V -> let acc := fold_left g (combine (seq 0 k) (firstn k (sc_names sc))) [] in
     keys_once acc /\ forall n, dget acc n = match dget (sc_index sc) n with Some v => if v <? k then d v else None | None => None end).
  { induction k as [|k IH]; intros K; cbv zeta.
    - cbn. split; [constructor|]. intros n. destruct (dget (sc_index sc) n); auto.
    - destruct IH as (N & G); [lia|]. cbv zeta in N, G.
      assert (SP : combine (seq 0 (S k)) (firstn (S k) (sc_names sc)) = combine (seq 0 k) (firstn k (sc_names sc)) ++ [(k, name k)]).
      { rewrite seq_S. assert (F : firstn (S k) (sc_names sc) = firstn k (sc_names sc) ++ [name k]).
        { unfold name. clear - K. subst V. revert K. generalize (sc_names sc). induction k; intros [|x l] K; cbn in *; try lia; auto. f_equal. apply IHk. lia. }
        rewrite F. apply combine_snoc. rewrite seq_length, firstn_length. fold V. lia. }
      rewrite SP, fold_left_app. cbn [fold_left]. set (acc := fold_left g (combine (seq 0 k) (firstn k (sc_names sc))) []) in *. assert (GK : g acc (k, name k) = match d k with None => acc | Some x => dset acc (name k) x end) by reflexivity. rewrite GK. clear GK.
      destruct (d k) as [x|] eqn:DK.
      + split; [now apply dset_NoDup|]. intros n. rewrite dget_dset. assert (IK := U k x K DK).
        destruct (String.eqb_spec n (name k)) as [->|Q].
        * rewrite IK. replace (k <? S k) with true by (symmetry; apply Nat.ltb_lt; lia). auto.
        * rewrite G. destruct (dget (sc_index sc) n) as [v|] eqn:I; auto. assert (v <> k).
          { intros ->. apply Q. symmetry. exact (proj2 (index_pos _ _ I)). }
          destruct (Nat.ltb_spec v k), (Nat.ltb_spec v (S k)); auto; lia.
      + split; auto. intros n. rewrite G. destruct (dget (sc_index sc) n) as [v|] eqn:I; auto.
        destruct (Nat.ltb_spec v k), (Nat.ltb_spec v (S k)); auto; try lia. replace v with k by lia. auto. }
  specialize (P V (le_n V)). cbv zeta in P. unfold V at 2 4 in P. rewrite firstn_all in P. destruct P as (N & G). split; auto.
  intros n. rewrite G. destruct (dget (sc_index sc) n) as [v|] eqn:I; auto. apply index_pos in I. now rewrite (proj2 (Nat.ltb_lt _ _) (proj1 I)).
Qed.

Lemma zeros_forallb : forall k, forallb (Z.eqb 0) (repeat 0%Z k) = true.
Proof. induction k; auto. Qed.
Lemma decode_zero : forall n k, decode n (repeat 0%Z k) = Ok None.
Proof. intros. unfold decode. now rewrite zeros_forallb. Qed.

Lemma onehot_facts : forall k i, i < k -> let c := upd (repeat 0%Z k) i 1%Z in
  forallb (Z.eqb 0) c = false /\ zsum c = 1%Z /\ zargmax c = Ok i.
Proof.
  intros k i H c. split; [|split].
  - subst c. revert i H. induction k; intros i H; [lia|]. destruct i; cbn; auto. apply IHk. lia.
  - subst c. revert i H. induction k; intros i H; [lia|]. destruct i; cbn.
    + clear. unfold zsum. induction k; cbn; auto. 
    + unfold zsum in *. cbn. rewrite IHk by lia. auto.
  - subst c. destruct k as [|k]; [lia|]. destruct i as [|i]; cbn.
    + f_equal. generalize 1 at 1. generalize k at 1. clear. intros m. induction m; intros; cbn; auto.
    + f_equal. assert (Q : forall k i j, i < k -> zargmax_from 0 0 j (upd (repeat 0%Z k) i 1%Z) = j + i).
      { clear. induction k as [|k IH]; intros i j H; [lia|]. destruct i; cbn.
        - assert (Y : forall m a b, zargmax_from 1 a b (repeat 0%Z m) = a) by (induction m; intros; cbn; auto). rewrite Y. lia.
        - rewrite IH by lia. lia. }
      rewrite Q by lia. reflexivity.
Qed.

Lemma int8_id : forall z, (0 <= z <= 127)%Z -> int8 z = z.
Proof. intros z H. unfold int8. rewrite Z.mod_small by lia. lia. Qed.

Lemma decode_encode : ranges_fit sc -> forall n jv, decode n (encode n jv) = Ok (legal_value sc n jv).
Proof.
  intros RF n jv. destruct (legal_value sc n jv) as [x|] eqn:LV.
  2:{ rewrite encode_legal, LV. apply decode_zero. }
  unfold encode, put_value. rewrite LV. unfold legal_value in LV. destruct (dget (sc_types sc) n) as [[]|] eqn:T; [| |discriminate].
  - destruct jv; try discriminate. destruct (so_cat _ SO n T) as (vs & ix & CV & CI & IXS & IXN). rewrite CV in LV.
    destruct (in_dec string_dec s vs) as [I|I]; [|discriminate]. injection LV as <-. destruct (proj1 (IXS s) I) as (i & D).
    unfold cat_pos. rewrite CI, D. unfold feature_width. rewrite T, CV. assert (NE := IXN _ _ D).
    assert (LI : i < length vs) by (apply nth_error_Some; congruence). destruct (onehot_facts _ _ LI) as (A & B & C).
    unfold decode. rewrite A, B. unfold dget_. rewrite T. cbn [bind]. rewrite CV. cbn [Z.eqb Pos.eqb assert_ bind]. rewrite C. cbn [bind]. unfold get. rewrite NE. reflexivity.
  - destruct (py_int jv) as [z|]; [|discriminate]. destruct (dget (sc_ranges sc) n) as [(lo, hi)|] eqn:RG; [|discriminate].
    destruct ((lo <=? z)%Z && (z <=? hi)%Z) eqn:B; [|discriminate]. injection LV as <-. apply andb_true_iff in B. destruct B as [B1 B2]. apply Z.leb_le in B1, B2.
    specialize (RF n lo hi RG). rewrite !int8_id by lia. unfold decode. cbn [forallb].
    assert (F : ((0 =? z - lo) && ((0 =? hi - z) && true) = false)%Z).
    { destruct (Z.eqb_spec 0 (z - lo)), (Z.eqb_spec 0 (hi - z)); auto; lia. }
    rewrite F. unfold dget_. rewrite T, RG. cbn [bind fst snd]. unfold zsum. cbn [fold_right].
    replace (z - lo + (hi - z + 0))%Z with (hi - lo)%Z by lia. rewrite Z.eqb_refl. cbn. repeat f_equal. lia.
Qed.
End Schema.
