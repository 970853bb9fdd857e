From Coq Require Import String.
From Coq Require Import List Arith ZArith Permutation Bool Lia.
From Verif Require Import Base Spec_Ragged M_Structure M_Util M_Config M_Strings M_Serving M_Validate Spec_Validate L_Base L_Ragged L_Config L_Validate.
Import ListNotations.
Open Scope list_scope.
Open Scope nat_scope.

Lemma keys_set_in : forall d k v x, In x (keys (dict_set d k v)) <-> x = k \/ In x (keys d).
Proof.
  intros d k v x. rewrite !lookup_keys, lookup_set. destruct (String.eqb_spec x k).
  - split; auto. discriminate.
  - split; [auto|]. intros [E|E]; [easy|auto].
Qed.
Lemma NoDup_set : forall d k v, NoDup (keys d) -> NoDup (keys (dict_set d k v)).
Proof.
  induction d as [|[k' v'] t IH]; intros k v H; cbn.
  - constructor; auto; constructor.
  - inversion H; subst. destruct (String.eqb_spec k k') as [->|N]; cbn; auto. constructor; auto.
    fold (keys (dict_set t k v)). rewrite keys_set_in. intros [E|E]; [now elim N|auto].
Qed.

(** The loop over the cells of a row. *)
Definition set_cell (options : dict) (kv : string * string) : result dict :=
  match int_of_str (snd kv) with Some z => Ok (dict_set options (fst kv) (PInt z)) | None => Raise ValueError end.

Lemma set_cells : forall header row o, length row = length header -> (forall cell, In cell row -> int_of_str cell <> None) ->
  exists o', foldM set_cell (combine header row) o = Ok o' /\ (NoDup (keys o) -> NoDup (keys o')) /\
    (forall k, ~ In k header -> lookup o' k = lookup o k) /\
    (forall j k, nth_error header j = Some k -> (forall i, j < i -> nth_error header i <> Some k) ->
       lookup o' k = option_map PInt (int_of_str (nth j row EmptyString))) /\
    (forall k, In k (keys o') <-> In k header \/ In k (keys o)).
Proof.
  induction header as [|h hs IH]; intros row o L P; destruct row as [|c row]; try discriminate.
  - exists o. cbn. repeat split; auto; try (intros; destruct j; discriminate). intros [[]|]; auto.
  - cbn [combine foldM]. unfold set_cell at 1. cbn [fst snd]. destruct (int_of_str c) as [z|] eqn:EC.
    2:{ elim (P c); auto. now left. }
    cbn [bind]. destruct (IH row (dict_set o h (PInt z))) as (o' & E & ND & K1 & K2 & K3).
    { now injection L. } { intros cell H. apply P. now right. }
    exists o'. split; [exact E|]. split; [auto using NoDup_set|]. split.
    { intros k H. rewrite K1, lookup_set. destruct (String.eqb_spec k h) as [->|]; auto. elim H. now left. intros Q. apply H. now right. }
    split.
    { intros [|j] k Hj LT; cbn in Hj.
      - injection Hj as <-. cbn. rewrite EC. cbn. rewrite K1, lookup_set, String.eqb_refl; auto.
        intros Q. apply In_nth_error in Q as (i & Q). apply (LT (S i)); auto. lia.
      - cbn. apply K2; auto. intros i Hi. apply (LT (S i)). lia. }
    intros k. rewrite K3, keys_set_in. cbn. intuition.
Qed.

Lemma set_cells_bad : forall header row o, length row = length header -> (exists cell, In cell row /\ int_of_str cell = None) ->
  foldM set_cell (combine header row) o = Raise ValueError.
Proof.
  induction header as [|h hs IH]; intros row o L (c & H & E); destruct row as [|c' row]; try discriminate; [easy|].
  cbn [combine foldM]. unfold set_cell at 1. cbn [fst snd]. destruct H as [->|H]. now rewrite E.
  destruct (int_of_str c'); cbn [bind]; auto. apply IH. now injection L. eauto.
Qed.

Lemma foldM_ext : forall A S (f g : S -> A -> result S) l s, (forall s a, f s a = g s a) -> foldM f l s = foldM g l s.
Proof. induction l; cbn; intros; auto. rewrite H. destruct (g s a); cbn; auto. Qed.

Lemma mapM_all : forall A B (f : A -> result B) (Q : A -> B -> Prop) l, (forall x, In x l -> exists y, f x = Ok y /\ Q x y) ->
  exists ys, mapM f l = Ok ys /\ Forall2 Q l ys.
Proof.
  induction l; intros H. exists []. split; auto. destruct (H a) as (y & E & q). now left.
  destruct IHl as (ys & E' & F). intros; apply H; now right. exists (y :: ys). cbn. rewrite E. cbn. rewrite E'. cbn. split; auto.
Qed.

Lemma Forall2_nth_error : forall A B (Q : A -> B -> Prop) l m, Forall2 Q l m ->
  forall i a b, nth_error l i = Some a -> nth_error m i = Some b -> Q a b.
Proof. induction 1; intros [|i] a b; cbn; try discriminate. congruence. eauto. Qed.

Section Read.
Variables (options : dict) (header : list string).
Hypothesis ND : NoDup (map fst options).
Hypothesis NS : lookup options "seed" = None.
Hypothesis HS : ~ In "seed"%string header.
Hypothesis HN : header <> [].
Hypothesis PO : incl (map fst options) params.
Hypothesis PH : incl header params.

(** The options after some rows. *)
Definition inv (o : dict) : Prop :=
  NoDup (keys o) /\ lookup o "seed" = None /\ incl (keys o) params /\ forall k, ~ In k header -> lookup o k = lookup options k.

Definition parses (row : list string) : Prop := forall cell, In cell row -> int_of_str cell <> None.

Lemma used_true : forall row, used header row = true -> length row = length header /\ exists c t, row = c :: t /\ starts_hash c = false.
Proof using HN.
  clear HS PH.
  intros row H. apply andb_prop in H as [A B]. apply Nat.eqb_eq in A. split; auto. destruct row as [|c t].
  - destruct header; [now elim HN|discriminate]. - exists c, t. split; auto. now apply negb_true_iff in B.
Qed.

Lemma row_used : forall P o cs row, inv o -> used header row = true -> parses row ->
  exists o' new, read_param_row P header (o, cs) row = Ok (o', cs ++ new) /\ inv o' /\ length new = Z.to_nat P /\
    forall part, part < Z.to_nat P -> exists c, nth_error new part = Some c /\ describes options header row part c.
Proof.
  intros P o cs row (I1 & I2 & I3 & I4) U PR. destruct (used_true row U) as (L & c0 & t0 & ER & SH).
  unfold read_param_row. rewrite L, Nat.eqb_refl. cbn [negb]. replace (get IndexError row 0) with (Ok c0) by (rewrite ER; reflexivity). cbn [bind]. rewrite SH.
  rewrite (foldM_ext _ _ _ set_cell) by (intros s [k v]; reflexivity).
  destruct (set_cells header row o L PR) as (o' & E & ND' & K1 & K2 & K3). rewrite E. cbn [bind].
  assert (NS' : lookup o' "seed" = None) by (rewrite K1; auto).
  assert (IN' : inv o').
  { split; auto. split; auto. split. intros k H. apply K3 in H as [H|H]; auto. intros k H. rewrite K1; auto. }
  assert (G : forall part, exists c, make_config (("seed"%string, PInt (Z.of_nat part)) :: o') = Ok c /\ describes options header row part c).
  { intros part. destruct (make_config_spec (("seed"%string, PInt (Z.of_nat part)) :: o')) as [_ MC].
    { cbn. constructor; [|now apply ND']. fold (keys o'). rewrite lookup_keys. now rewrite NS'. }
    destruct MC as (c & EC & KC & VC).
    { intros k [<-|H]. now left. apply IN' in H. exact H. }
    unfold int_at in VC. exists c. split; auto. split; [exact KC|]. split; [|split].
    - unfold setting. rewrite (VC "seed"%string). reflexivity.
    - intros j k Hj LT. unfold setting. rewrite (VC k). cbn [lookup].
      destruct (String.eqb_spec k "seed") as [->|N]. { elim HS. now apply nth_error_In in Hj. }
      rewrite (K2 j k Hj LT).
      assert (Q : int_of_str (nth j row EmptyString) <> None).
      { apply PR. apply nth_In. rewrite L. apply nth_error_Some. now rewrite Hj. }
      destruct (int_of_str (nth j row EmptyString)); [reflexivity|now elim Q].
    - intros k N NH. unfold setting. rewrite (VC k). cbn [lookup]. destruct (String.eqb_spec k "seed") as [|_]; [easy|].
      rewrite (K1 k NH), (I4 k NH). reflexivity. }
  destruct (mapM_all _ _ (fun partid => make_config (("seed"%string, PInt (Z.of_nat partid)) :: o'))
     (fun part c => describes options header row part c) (seq 0 (Z.to_nat P))) as (new & EN & F). { intros part _. apply G. }
  rewrite EN. cbn [bind]. exists o', new. split; auto. split; auto.
  assert (LN : length (seq 0 (Z.to_nat P)) = length new) by (clear -F; induction F; cbn; auto). rewrite seq_length in LN. split; auto.
  intros part Hp. destruct (in_nth_error_len _ new part) as (c & EC). lia. exists c. split; auto.
  apply (Forall2_nth_error _ _ _ _ _ F part part c); auto.
  rewrite (nth_error_nth' _ 0) by now rewrite seq_length. now rewrite seq_nth.
Qed.

Lemma row_skipped : forall P o cs row, used header row = false -> read_param_row P header (o, cs) row = Ok (o, cs).
Proof using HN.
  clear HS PH.
  intros P o cs row U. unfold read_param_row. unfold used in U. destruct (length row =? length header) eqn:L; cbn [negb andb] in *; auto.
  apply Nat.eqb_eq in L. destruct row as [|c t]. { destruct header; [now elim HN|discriminate]. }
  cbn [get nth_error bind]. cbn in U. apply negb_false_iff in U. now rewrite U.
Qed.

Lemma rows_Ok : forall P rows o cs, inv o -> (forall row, In row rows -> used header row = true -> parses row) ->
  exists o' new, foldM (read_param_row P header) rows (o, cs) = Ok (o', cs ++ new) /\
    length new = length (filter (used header) rows) * Z.to_nat P /\
    forall i row part, nth_error (filter (used header) rows) i = Some row -> part < Z.to_nat P ->
      exists c, nth_error new (i * Z.to_nat P + part) = Some c /\ describes options header row part c.
Proof.
  intros P. induction rows as [|row rows IH]; intros o cs IO PR.
  - exists o, []. cbn. rewrite app_nil_r. split; auto. split; auto. intros [|i] row part H; discriminate.
  - cbn [foldM filter]. destruct (used header row) eqn:U.
    + destruct (row_used P o cs row IO U (PR row (or_introl eq_refl) U)) as (o1 & new1 & E1 & I1 & L1 & P1). rewrite E1. cbn [bind].
      destruct (IH o1 (cs ++ new1) I1) as (o2 & new2 & E2 & L2 & P2). { intros; apply PR; auto. now right. }
      exists o2, (new1 ++ new2). rewrite E2, app_assoc. split; auto. cbn [length]. rewrite app_length. split; [lia|].
      intros [|i] r part Hi Hp; cbn in Hi.
      * injection Hi as <-. destruct (P1 part Hp) as (c & EC & D). exists c. split; auto. cbn. rewrite nth_error_app1; auto. lia.
      * destruct (P2 i r part Hi Hp) as (c & EC & D). exists c. split; auto. rewrite nth_error_app2 by lia.
        rewrite <- EC. f_equal. lia.
    + rewrite (row_skipped P o cs row U). cbn [bind]. apply IH; auto. intros; apply PR; auto. now right.
Qed.

Lemma read_Ok : forall rows, ~ In "model_ensemble_size"%string header -> (forall row, In row rows -> used header row = true -> parses row) ->
  exists configs, read_param_csv (header :: rows) options = Ok (header, configs) /\
    length configs = length (filter (used header) rows) * parts_of options /\
    forall i row part, nth_error (filter (used header) rows) i = Some row -> part < parts_of options ->
      exists c, nth_error configs (i * parts_of options + part) = Some c /\ describes options header row part c.
Proof.
  intros rows HM PR. unfold read_param_csv. rewrite NS. cbn [assert_ bind].
  replace (existsb (String.eqb "seed") header) with false. 2:{ symmetry. apply not_true_iff_false. intros Q. apply existsb_exists in Q as (x & A & B). apply String.eqb_eq in B as <-. auto. }
  replace (existsb (String.eqb "model_ensemble_size") header) with false. 2:{ symmetry. apply not_true_iff_false. intros Q. apply existsb_exists in Q as (x & A & B). apply String.eqb_eq in B as <-. auto. }
  cbn [negb assert_ bind].
  set (P := match lookup options "model_ensemble_size" with Some v => to_int v | None => 4%Z end).
  assert (EP : Z.to_nat P = parts_of options). { unfold P, parts_of, setting. destruct (lookup options "model_ensemble_size"); reflexivity. }
  destruct (rows_Ok P rows options []) as (o' & new & E & L & D); auto. { repeat split; auto. }
  rewrite E. cbn [bind app]. exists new. rewrite EP in *. auto.
Qed.
End Read.

Lemma not_existsb : forall k header, ~ In k header -> existsb (String.eqb k) header = false.
Proof. intros k header H. apply not_true_iff_false. intros Q. apply existsb_exists in Q as (x & A & B). apply String.eqb_eq in B as <-. auto. Qed.
Lemma is_existsb : forall k header, In k header -> existsb (String.eqb k) header = true.
Proof. intros k header H. apply existsb_exists. exists k. split; auto. apply String.eqb_refl. Qed.

Lemma read_rejects : forall header rows options,
  (setting options "seed" <> None \/ In "seed"%string header \/ In "model_ensemble_size"%string header ->
   read_param_csv (header :: rows) options = Raise AssertionError) /\
  (setting options "seed" = None -> read_param_csv [] options = Raise StopIteration).
Proof.
  intros header rows options. split.
  - intros H. unfold read_param_csv. unfold setting in H. destruct (lookup options "seed"); cbn [assert_ bind]; auto.
    destruct H as [H|H]; [now elim H|]. destruct (existsb (String.eqb "seed") header) eqn:E; cbn [negb assert_ bind]; auto.
    destruct H as [H|H]. now rewrite (is_existsb _ _ H) in E. now rewrite (is_existsb _ _ H).
  - intros H. unfold read_param_csv. unfold setting in H. destruct (lookup options "seed"); [discriminate|]. reflexivity.
Qed.

(** A bad cell in a used row. *)
Lemma read_bad_cell : forall header rows options row cell, header <> [] ->
  setting options "seed" = None -> ~ In "seed"%string header -> ~ In "model_ensemble_size"%string header ->
  In row rows -> used header row = true -> In cell row -> int_of_str cell = None ->
  read_param_csv (header :: rows) options = Raise ValueError.
Proof.
  intros header rows options row cell HN NS HS HM IR U IC EC. unfold read_param_csv.
  unfold setting in NS. destruct (lookup options "seed"); [discriminate|]. rewrite !not_existsb by auto. cbn [negb assert_ bind].
  generalize (match lookup options "model_ensemble_size" with Some v => to_int v | None => 4%Z end). intros P.
  assert (G : forall o cs, foldM (read_param_row P header) rows (o, cs) = Raise ValueError).
  2:{ now rewrite G. }
  assert (MC : forall o, match make_config o with Ok _ => True | Raise e => e = ValueError end).
  { intros o. unfold make_config. generalize DEFAULT_CONFIG. induction o as [|[k v] o IH]; intros d; cbn; auto.
    destruct (lookup d k); cbn; auto. apply IH. }
  assert (MM : forall A (f : A -> result dict) l, (forall x, match f x with Ok _ => True | Raise e => e = ValueError end) ->
     match mapM f l with Ok _ => True | Raise e => e = ValueError end).
  { intros A f l Hf. induction l as [|a l IH]; cbn; auto. specialize (Hf a). destruct (f a); cbn; auto. destruct (mapM f l); cbn; auto. }
  assert (SC : forall l o, match foldM set_cell l o with Ok _ => True | Raise e => e = ValueError end).
  { induction l as [|a l IH]; intros o; cbn; auto. unfold set_cell at 1. destruct (int_of_str (snd a)); cbn; auto. apply IH. }
  induction rows as [|r rows IH]; intros o cs; [easy|]. cbn [foldM]. destruct (used header r) eqn:Ur.
  - destruct (used_true header HN r Ur) as (L & c0 & t0 & ER & SH).
    unfold read_param_row at 1. rewrite L, Nat.eqb_refl. cbn [negb]. replace (get IndexError r 0) with (Ok c0) by (rewrite ER; reflexivity). cbn [bind]. rewrite SH.
    rewrite (foldM_ext _ _ _ set_cell) by (intros s [k v]; reflexivity).
    destruct IR as [->|IR]. { rewrite set_cells_bad; eauto. }
    specialize (SC (combine header r) o). destruct (foldM set_cell (combine header r) o) as [o'|e]; cbn [bind]; [|now rewrite SC].
    specialize (MM _ (fun partid => make_config (("seed"%string, PInt (Z.of_nat partid)) :: o')) (seq 0 (Z.to_nat P)) ltac:(intros; apply MC)).
    destruct (mapM _ _); cbn [bind]; [|now rewrite MM]. auto.
  - rewrite (row_skipped header HN P o cs r Ur). cbn [bind]. apply IH. destruct IR as [->|]; auto. congruence.
Qed.

(** ** Model files *)

Lemma concat_prefix_inj : forall a b : string, ("model." ++ a ++ ".pkz" = "model." ++ b ++ ".pkz")%string -> a = b.
Proof.
  intros a b H. cbn in H. injection H as H. revert b H.
  assert (LA : forall s t : string, String.length (s ++ t) = String.length s + String.length t).
  { induction s; intros; cbn; auto. }
  induction a as [|c a IH]; intros b H.
  - destruct b; auto. apply (f_equal String.length) in H. rewrite !LA in H. cbn in H. lia.
  - destruct b as [|c' b]. { apply (f_equal String.length) in H. rewrite !LA in H. cbn in H. lia. }
    cbn in H. injection H as -> H. f_equal. now apply IH.
Qed.

Lemma model_file_inj : forall c d f, model_file c = Ok f -> model_file d = Ok f -> forall k, setting c k = setting d k.
Proof.
  intros c d f A B k. unfold model_file in A, B. destruct (serialize_config c) as [s|] eqn:E1; [|discriminate].
  destruct (serialize_config d) as [t|] eqn:E2; [|discriminate]. cbn [bind] in A, B.
  assert (s = t). { apply concat_prefix_inj. congruence. } subst t. now apply (serialize_injective c d s).
Qed.

Lemma model_file_Ok : forall c, map fst c = params -> exists f, model_file c = Ok f.
Proof.
  intros c H. unfold model_file. rewrite serialize_Ok. cbn [bind]. eauto. unfold is_config. unfold keys. rewrite H. apply Permutation_refl.
Qed.

(** ** Complete folds *)
Lemma parts_some : forall options k, setting options "model_ensemble_size" = Some k -> parts_of options = Z.to_nat k.
Proof. intros options k H. unfold parts_of. now rewrite H. Qed.

Lemma describes_seed : forall options header row part c, describes options header row part c -> setting c "seed" = Some (Z.of_nat part).
Proof. now intros options header row part c (_ & H & _). Qed.
Lemma describes_size : forall options header row part c, ~ In "model_ensemble_size"%string header -> describes options header row part c ->
  setting c "model_ensemble_size" = match setting options "model_ensemble_size" with Some z => Some z | None => Some 8%Z end.
Proof. intros options header row part c N (_ & _ & _ & H). now rewrite H. Qed.

Lemma folds_complete : forall randint ws N header rows options configs k, rng_contract randint ->
  header <> [] -> NoDup (map fst options) -> lookup options "seed" = None -> ~ In "seed"%string header -> incl (map fst options) params -> incl header params ->
  ~ In "model_ensemble_size"%string header -> (forall row, In row rows -> used header row = true -> parses row) ->
  setting options "model_ensemble_size" = Some k -> (0 < k)%Z ->
  read_param_csv (header :: rows) options = Ok (header, configs) ->
  forall i n p, i < length (filter (used header) rows) -> n < N -> p < list_sum ws ->
  exists! part, part < Z.to_nat k /\ exists c m, nth_error configs (i * Z.to_nat k + part) = Some c /\ fold_mask randint ws N c m /\ held_out m n p.
Proof.
  intros randint ws N header rows options configs k RC HN ND NS HS PO PH HM PR EK KP ER i n p Hi Hn Hp.
  destruct (read_Ok options header ND NS HS HN PO PH rows HM PR) as (configs' & E' & L & D).
  rewrite E' in ER. injection ER as ->. rewrite (parts_some _ _ EK) in *.
  destruct (in_nth_error_len _ _ i Hi) as (row & Erow).
  assert (FM : forall part, part < Z.to_nat k -> exists c, nth_error configs (i * Z.to_nat k + part) = Some c /\
     forall m, fold_mask randint ws N c m <-> split_data randint (make_ragged_index ws) N k (Z.of_nat part) = Ok m).
  { intros part Hpart. destruct (D i row part Erow Hpart) as (c & EC & DC). exists c. split; auto.
    pose proof (describes_seed _ _ _ _ _ DC) as S1. pose proof (describes_size _ _ _ _ _ HM DC) as S2. rewrite EK in S2.
    intros m. split.
    - intros (a & b & A & B & E). rewrite S1 in B. rewrite S2 in A. injection A as <-. injection B as <-. auto.
    - intros E. exists k, (Z.of_nat part). auto. }
  destruct (partition randint ws N k RC KP n p Hn Hp) as (z & (m & E & H) & U).
  destruct (split_held randint ws N k RC z m E) as (RZ & _).
  exists (Z.to_nat z). split.
  - split. lia. destruct (FM (Z.to_nat z)) as (c & EC & Q). lia. exists c, m. split; auto. split; auto. apply Q. now rewrite Z2Nat.id by lia.
  - intros part (Lp & c & m' & EC & F & H'). destruct (FM part Lp) as (c' & EC' & Q). rewrite EC' in EC. injection EC as ->.
    apply Q in F. rewrite (U (Z.of_nat part)) by eauto. now rewrite Nat2Z.id.
Qed.

(** Without the option, cells of parts 4 to 7 are never held out. *)
Lemma folds_incomplete : forall randint ws N header rows options configs, rng_contract randint ->
  header <> [] -> NoDup (map fst options) -> lookup options "seed" = None -> ~ In "seed"%string header -> incl (map fst options) params -> incl header params ->
  ~ In "model_ensemble_size"%string header -> (forall row, In row rows -> used header row = true -> parses row) ->
  setting options "model_ensemble_size" = None ->
  read_param_csv (header :: rows) options = Ok (header, configs) ->
  forall n p part m', n < N -> p < list_sum ws -> (4 <= part)%Z ->
  split_data randint (make_ragged_index ws) N 8 part = Ok m' -> held_out m' n p ->
  forall c m, In c configs -> fold_mask randint ws N c m -> ~ held_out m n p.
Proof.
  intros randint ws N header rows options configs RC HN ND NS HS PO PH HM PR EK ER n p part m' Hn Hp H4 E' H' c m IC (a & b & A & B & E) H.
  destruct (read_Ok options header ND NS HS HN PO PH rows HM PR) as (configs' & E2 & L & D).
  rewrite E2 in ER. injection ER as ->. apply In_nth_error in IC as (i & IC).
  assert (EP : parts_of options = 4) by (unfold parts_of; now rewrite EK). rewrite EP in *.
  assert (LI : i < length configs) by (apply nth_error_Some; now rewrite IC).
  destruct (in_nth_error_len _ (filter (used header) rows) (i / 4)) as (row & Erow).
  { apply Nat.div_lt_upper_bound; lia. }
  pose proof (Nat.mod_upper_bound i 4 ltac:(lia)) as MB.
  destruct (D (i / 4) row (i mod 4) Erow MB) as (c' & EC & DC).
  replace (i / 4 * 4 + i mod 4) with i in EC by (rewrite (Nat.div_mod_eq i 4) at 1; lia).
  rewrite IC in EC. injection EC as <-.
  pose proof (describes_seed _ _ _ _ _ DC) as S1. pose proof (describes_size _ _ _ _ _ HM DC) as S2. rewrite EK in S2.
  rewrite S1 in B. rewrite S2 in A. injection A as <-. injection B as <-.
  destruct (partition randint ws N 8 RC ltac:(lia) n p Hn Hp) as (z & _ & U).
  pose proof (U part ltac:(eauto)) as U1. pose proof (U (Z.of_nat (i mod 4)) ltac:(eauto)) as U2. lia.
Qed.

(** ** Examples *)
Definition ex_rng : rng := fun _ parts N V => map (fun n => map (fun v => Z.modulo (Z.of_nat (5 + n + v)) parts) (seq 0 V)) (seq 0 N).
Lemma ex_rng_ok : rng_contract ex_rng.
Proof.
  intros seed parts N V H. unfold ex_rng. split. now rewrite map_length, seq_length. intros row Hr. apply in_map_iff in Hr as (n & <- & _).
  split. now rewrite map_length, seq_length. intros x Hx. apply in_map_iff in Hx as (v & <- & _). apply Z.mod_pos_bound. auto.
Qed.

Definition ex_csv : list (list string) :=
  [["model_num_clusters"; "learning_init_epochs"]; ["16"; "10"]; ["# 32"; "10"]; ["32"]; ["32"; " 20"]]%string.

Lemma folds_refuted : exists randint, rng_contract randint /\
  exists lines options header configs, read_param_csv lines options = Ok (header, configs) /\ configs <> [] /\
  exists ws N n p, n < N /\ p < list_sum ws /\
    forall c, In c configs -> (exists m, fold_mask randint ws N c m) /\ forall m, fold_mask randint ws N c m -> ~ held_out m n p.
Proof.
  exists ex_rng. split; [exact ex_rng_ok|]. exists ex_csv, []. eexists. eexists. split; [vm_compute; reflexivity|]. split; [discriminate|].
  exists [2; 1], 3, 0, 0. split; [lia|]. split; [vm_compute; lia|]. intros c IC.
  assert (Q : exists j, j < 4 /\ setting c "seed" = Some (Z.of_nat j) /\ setting c "model_ensemble_size" = Some 8%Z).
  { repeat (destruct IC as [<-|IC]; [first [exists 0; split; [lia|split; reflexivity] | exists 1; split; [lia|split; reflexivity] | exists 2; split; [lia|split; reflexivity] | exists 3; split; [lia|split; reflexivity]]|]).
    destruct IC. }
  destruct Q as (j & Hj & S1 & S2). split.
  - destruct (split_Ok ex_rng [2; 1] 3 8 ex_rng_ok (Z.of_nat j)) as (m & E & _); [lia|]. exists m. exists 8%Z, (Z.of_nat j). auto.
  - intros m (a & b & A & B & E) H. rewrite S1 in B. rewrite S2 in A. injection A as <-. injection B as <-.
    destruct (split_held ex_rng [2; 1] 3 8 ex_rng_ok _ _ E) as (_ & _ & P). unfold held_out in H.
    rewrite (P 0 0 0) in H by (try lia; split; cbn; lia). injection H as H. apply Z.eqb_eq in H.
    assert (Q : (Z.of_nat j = 5)%Z) by exact H. lia.
Qed.
