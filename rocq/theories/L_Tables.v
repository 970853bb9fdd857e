From Coq Require Import List Arith Bool ZArith Lia.
From Verif Require Import Base L_Base M_Tables Spec_Tables.
Import ListNotations.
Open Scope nat_scope.

Definition lesser (a a' : ndarray) : Prop := a_dtype a' = a_dtype a /\ a_mem a' = a_mem a /\ a_pos a' = a_pos a /\ (a_write a' = true -> a_write a = true).
Definition kept (h h' : heap) : Prop := forall r a, nth_error (h_arrays h) r = Some a -> exists a', nth_error (h_arrays h') r = Some a' /\ lesser a a'.
Definition frozen (h : heap) (m : nat) : Prop := m < length (h_mem h) /\ forall r a, nth_error (h_arrays h) r = Some a -> a_mem a = m -> a_write a = false.

Record safe (h h' : heap) : Prop := {
  sf_ok : heap_ok h -> heap_ok h';
  sf_kept : kept h h';
  sf_frozen : forall m, frozen h m -> frozen h' m /\ nth m (h_mem h') [] = nth m (h_mem h) [] }.

Lemma lesser_refl a : lesser a a. Proof. repeat split; auto. Qed.
Lemma kept_refl h : kept h h. Proof. intros r a E. exists a. split; [exact E|apply lesser_refl]. Qed.
Lemma lesser_trans a b c : lesser a b -> lesser b c -> lesser a c.
Proof. intros (A1 & A2 & A3 & A4) (B1 & B2 & B3 & B4). repeat split; congruence || auto. Qed.
Lemma kept_trans h1 h2 h3 : kept h1 h2 -> kept h2 h3 -> kept h1 h3.
Proof. intros A B r a E. destruct (A r a E) as (b & Eb & L1). destruct (B r b Eb) as (c & Ec & L2). exists c. split; [exact Ec|eapply lesser_trans; eauto]. Qed.
Lemma safe_refl h : safe h h. Proof. split; auto using kept_refl. Qed.
Lemma safe_trans h1 h2 h3 : safe h1 h2 -> safe h2 h3 -> safe h1 h3.
Proof.
  intros [A1 A2 A3] [B1 B2 B3]. split; [auto|eapply kept_trans; eauto|]. intros m F. destruct (A3 m F) as (F2 & E2). destruct (B3 m F2) as (F3 & E3). split; [exact F3|congruence].
Qed.

Lemma nth_error_upd {A} (l : list A) i x j : nth_error (upd l i x) j = if (i =? j) && (i <? length l) then Some x else nth_error l j.
Proof.
  revert i j. induction l as [|y l IH]; intros i j; [destruct i; cbn; now rewrite andb_false_r|]. destruct i, j; cbn; auto. rewrite IH. reflexivity.
Qed.
Lemma nth_error_snoc {A} (l : list A) x j : nth_error (l ++ [x]) j = if j <? length l then nth_error l j else if j =? length l then Some x else None.
Proof.
  destruct (Nat.ltb_spec j (length l)); [now apply nth_error_app1|]. rewrite nth_error_app2 by lia. destruct (Nat.eqb_spec j (length l)) as [->|N]; [now rewrite Nat.sub_diag|].
  destruct (j - length l) as [|[|k]] eqn:E; try lia; reflexivity.
Qed.

(** What asarray and read_only do: new arrays have new memory, and no memory changes. *)
Record ext (h h' : heap) : Prop := {
  ex_len : length (h_mem h) <= length (h_mem h');
  ex_mem : forall m, m < length (h_mem h) -> nth m (h_mem h') [] = nth m (h_mem h) [];
  ex_ok : heap_ok h -> heap_ok h';
  ex_kept : kept h h';
  ex_new : forall r a', nth_error (h_arrays h') r = Some a' -> (exists a, nth_error (h_arrays h) r = Some a /\ lesser a a') \/ length (h_mem h) <= a_mem a' }.

Lemma ext_refl h : ext h h.
Proof. split; auto using kept_refl. intros r a E. left. exists a. split; [exact E|apply lesser_refl]. Qed.
Lemma ext_trans h1 h2 h3 : ext h1 h2 -> ext h2 h3 -> ext h1 h3.
Proof.
  intros [A1 A2 A3 A4 A5] [B1 B2 B3 B4 B5]. split; [lia| |auto|eapply kept_trans; eauto|].
  - intros m Hm. rewrite B2 by lia. now apply A2.
  - intros r c E. destruct (B5 r c E) as [(b & Eb & L2)|G]; [|right; lia]. destruct (A5 r b Eb) as [(a & Ea & L1)|G].
    + left. exists a. split; [exact Ea|eapply lesser_trans; eauto].
    + right. destruct L2 as (_ & M & _). lia.
Qed.
Lemma ext_safe h h' : ext h h' -> safe h h'.
Proof.
  intros [A1 A2 A3 A4 A5]. split; [exact A3|exact A4|]. intros m (Hm & F). split; [|now apply A2]. split; [lia|]. intros r a' E M.
  destruct (A5 r a' E) as [(a & Ea & L)|G]; [|lia]. destruct L as (_ & M2 & _ & W). destruct (a_write a') eqn:Wr; [|reflexivity]. rewrite <- (F r a Ea ltac:(congruence)). symmetry. now apply W.
Qed.
Lemma alloc_ext h dt l : ext h (fst (alloc h dt l)).
Proof.
  unfold alloc. cbn [fst]. split; cbn [h_mem h_arrays].
  - rewrite app_length. lia.
  - intros m Hm. now apply app_nth1.
  - intros OK r a E. cbn [h_arrays h_mem] in *. rewrite app_length. cbn. rewrite nth_error_snoc in E. destruct (r <? _); [apply OK in E; lia|]. destruct (r =? _); [|discriminate]. inversion E. cbn. lia.
  - intros r a E. exists a. split; [|apply lesser_refl]. cbn. rewrite nth_error_app1; [exact E|]. apply nth_error_Some. congruence.
  - intros r a' E. rewrite nth_error_snoc in E. destruct (r <? _); [left; exists a'; split; [exact E|apply lesser_refl]|]. destruct (r =? _); [|discriminate]. inversion E. right. cbn. lia.
Qed.
Lemma read_only_ext h r : ext h (read_only h r).
Proof.
  unfold read_only. destruct (nth_error (h_arrays h) r) as [a|] eqn:E; [|apply ext_refl].
  assert (HL : r < length (h_arrays h)) by (apply nth_error_Some; congruence).
  assert (K : forall q b, nth_error (upd (h_arrays h) r (Arr (a_dtype a) (a_mem a) (a_pos a) false)) q = Some b -> exists c, nth_error (h_arrays h) q = Some c /\ lesser c b).
  { intros q b Eb. rewrite nth_error_upd in Eb. destruct (Nat.eqb_spec r q) as [->|N]; [|exists b; split; [exact Eb|apply lesser_refl]].
    rewrite (proj2 (Nat.ltb_lt _ _) HL) in Eb. inversion Eb. exists a. split; [exact E|]. repeat split; cbn; auto. discriminate. }
  split; cbn [h_mem h_arrays]; auto.
  - intros OK q b Eb. cbn in *. destruct (K q b Eb) as (c & Ec & _ & M & _). rewrite M. now apply (OK q).
  - intros q b Eb. cbn [h_arrays]. rewrite nth_error_upd. destruct (Nat.eqb_spec r q) as [->|N]; [|exists b; split; [exact Eb|apply lesser_refl]].
    rewrite (proj2 (Nat.ltb_lt _ _) HL). cbn. rewrite E in Eb. inversion Eb; subst. eexists. split; [reflexivity|]. repeat split; cbn; auto. discriminate.
Qed.
Lemma asarray_ext h dt r : ext h (fst (asarray h dt r)).
Proof. unfold asarray. destruct (nth_error _ r) as [a|]; [|apply alloc_ext]. destruct (a_dtype a =? dt); [apply ext_refl|apply alloc_ext]. Qed.
Lemma new_table_ext h ft ri d c : ext h (fst (new_table h ft ri d c)).
Proof.
  unfold new_table.
  repeat match goal with
  | |- context [asarray ?h ?dt ?r] => let E := fresh "E" in pose proof (asarray_ext h dt r) as E; destruct (asarray h dt r); cbn [fst] in E
  | |- context [match c with None => alloc ?h 16 [] | Some r => (?h, r) end] =>
    let E := fresh "E" in assert (E : ext h (fst (match c with None => alloc h 16 [] | Some r => (h, r) end))) by (destruct c; [apply ext_refl|apply alloc_ext]);
    destruct (match c with None => alloc h 16 [] | Some r => (h, r) end); cbn [fst] in E
  end.
  cbn [fst]. repeat match goal with X : ext (read_only ?a ?r) ?b |- _ => apply (ext_trans _ _ _ (read_only_ext a r)) in X end.
  eauto 12 using ext_trans, read_only_ext.
Qed.

Lemma write_safe h r i z h' : write h r i z = Ok h' -> safe h h'.
Proof.
  unfold write. destruct (nth_error (h_arrays h) r) as [a|] eqn:E; [|discriminate]. destruct (a_write a) eqn:W; [|discriminate]. destruct (nth_error (a_pos a) i) as [p|]; [|discriminate].
  intros X. inversion X; subst. clear X. split; cbn [h_arrays h_mem].
  - intros OK q b Eb. cbn in *. rewrite upd_length. now apply (OK q).
  - intros q b Eb. exists b. split; [exact Eb|apply lesser_refl].
  - intros m (Hm & F). split; [split; [cbn; now rewrite upd_length|exact F]|]. cbn. apply nth_upd_other. intros M. rewrite (F r a E M) in W. discriminate.
Qed.
Lemma view_safe h r is h' : view h r is = Ok h' -> safe h h'.
Proof.
  unfold view. destruct (nth_error (h_arrays h) r) as [a|] eqn:E; [|discriminate]. destruct (mapM _ is) as [ps|]; [|discriminate]. cbn [bind]. intros X. inversion X; subst. clear X.
  split; cbn [h_arrays h_mem].
  - intros OK q b Eb. cbn in *. rewrite nth_error_snoc in Eb. destruct (q <? _); [now apply (OK q)|]. destruct (q =? _); [|discriminate]. inversion Eb. cbn. now apply (OK r).
  - intros q b Eb. exists b. split; [|apply lesser_refl]. cbn. rewrite nth_error_app1; [exact Eb|]. apply nth_error_Some. congruence.
  - intros m (Hm & F). split; [|reflexivity]. split; [exact Hm|]. intros q b Eb M. cbn in Eb. rewrite nth_error_snoc in Eb. destruct (q <? _); [now apply (F q)|]. destruct (q =? _); [|discriminate].
    inversion Eb; subst. cbn in *. now apply (F r).
Qed.
Lemma act_safe h a : safe h (act h a).
Proof.
  destruct a; cbn [act].
  - destruct (write h r i z) eqn:E; [eapply write_safe; eauto|apply safe_refl].
  - destruct (view h r is) eqn:E; [eapply view_safe; eauto|apply safe_refl].
  - apply ext_safe, asarray_ext.
  - apply ext_safe, alloc_ext.
  - apply ext_safe, read_only_ext.
  - apply ext_safe, new_table_ext.
Qed.
Lemma acts_safe l : forall h, safe h (acts h l).
Proof. induction l as [|a l IH]; intros h; [apply safe_refl|]. eapply safe_trans; [apply act_safe|apply IH]. Qed.

(** A reference whose memory nobody can write to. *)
Definition fixed_ref (h : heap) (r : nat) : Prop := exists a, nth_error (h_arrays h) r = Some a /\ frozen h (a_mem a).
Lemma fixed_content h h' r : safe h h' -> fixed_ref h r -> content h' r = content h r /\ fixed_ref h' r.
Proof.
  intros [_ K F] (a & E & FZ). destruct (K r a E) as (a' & E' & _ & M & Ps & _). destruct (F _ FZ) as (FZ' & EM). split.
  - unfold content. rewrite E, E', M, EM, Ps. reflexivity.
  - exists a'. split; [exact E'|]. now rewrite M.
Qed.
Lemma fixed_not_writeable h r : fixed_ref h r -> ~ writeable h r.
Proof. intros (a & E & _ & F) (b & Eb & W). rewrite E in Eb. inversion Eb; subst. rewrite (F r b E eq_refl) in W. discriminate. Qed.

Lemma ext_content h h' r : heap_ok h -> ext h h' -> (exists a, nth_error (h_arrays h) r = Some a) -> content h' r = content h r.
Proof.
  intros OK [_ EM _ K _] (a & E). destruct (K r a E) as (a' & E' & _ & M & Ps & _). unfold content. rewrite E, E', M, Ps, EM; [reflexivity|]. now apply (OK r).
Qed.
Lemma alone_ext h h' dt r : heap_ok h -> ext h h' -> copied_or_alone h dt r -> copied_or_alone h' dt r.
Proof.
  intros OK [EL _ _ K N] (a & E & A). destruct (K r a E) as (a' & E' & D & M & _). exists a'. split; [exact E'|]. intros D' q b Eb Mb Nq.
  destruct (N q b Eb) as [(c & Ec & Dc & Mc & _ & Wc)|G].
  - destruct (a_write b) eqn:W; [|reflexivity]. rewrite <- (A ltac:(congruence) q c Ec ltac:(congruence) Nq). symmetry. now apply Wc.
  - exfalso. pose proof (OK r a E). lia.
Qed.

Lemma alloc_content h dt l : content (fst (alloc h dt l)) (snd (alloc h dt l)) = map (cast dt) l.
Proof.
  unfold content, alloc. cbn [fst snd h_arrays h_mem]. rewrite nth_error_snoc, Nat.ltb_irrefl, Nat.eqb_refl. cbn [a_pos a_mem]. rewrite app_nth2, Nat.sub_diag by lia. cbn [nth].
  apply (nth_ext _ _ 0%Z 0%Z); [now rewrite !map_length, seq_length|]. intros n Hn. rewrite map_length, seq_length in Hn.
  rewrite (nth_indep (map _ (seq 0 (length l))) 0%Z (nth 0 (map (cast dt) l) 0%Z)) by now rewrite map_length, seq_length.
  rewrite (map_nth (fun p => nth p (map (cast dt) l) 0%Z)). now rewrite seq_nth.
Qed.
Lemma alloc_fixed h dt l : heap_ok h -> fixed_ref (read_only (fst (alloc h dt l)) (snd (alloc h dt l))) (snd (alloc h dt l)).
Proof.
  intros OK. unfold alloc. cbn [fst snd]. unfold read_only. cbn [h_arrays h_mem]. rewrite nth_error_snoc, Nat.ltb_irrefl, Nat.eqb_refl. cbn [a_dtype a_mem a_pos].
  eexists. cbn [h_arrays h_mem]. rewrite nth_error_upd, Nat.eqb_refl, app_length. cbn [length]. rewrite (proj2 (Nat.ltb_lt _ _)) by lia. cbn [andb]. split; [reflexivity|]. cbn [a_mem].
  split; [cbn; rewrite app_length; cbn; lia|]. intros q b Eb M. cbn in Eb. rewrite nth_error_upd, nth_error_snoc, app_length in Eb. cbn [length] in Eb.
  destruct (Nat.eqb_spec (length (h_arrays h)) q) as [<-|N].
  - rewrite (proj2 (Nat.ltb_lt _ _)) in Eb by lia. inversion Eb. reflexivity.
  - cbn [andb] in Eb. destruct (Nat.ltb_spec q (length (h_arrays h))); [apply OK in Eb; lia|]. destruct (Nat.eqb_spec q (length (h_arrays h))); [lia|discriminate].
Qed.
Lemma read_only_content h r q : content (read_only h r) q = content h q.
Proof.
  unfold read_only. destruct (nth_error (h_arrays h) r) as [a|] eqn:E; [|reflexivity]. unfold content. cbn [h_arrays h_mem]. rewrite nth_error_upd.
  destruct (Nat.eqb_spec r q) as [->|N]; [|reflexivity]. destruct (q <? length (h_arrays h)); cbn; [rewrite E; reflexivity|reflexivity].
Qed.

Lemma protect h dt r : heap_ok h -> copied_or_alone h dt r -> (forall z, In z (content h r) -> cast dt z = z) ->
  let h1 := fst (asarray h dt r) in let r1 := snd (asarray h dt r) in
  fixed_ref (read_only h1 r1) r1 /\ content (read_only h1 r1) r1 = content h r.
Proof.
  intros OK (a & E & A) CA. unfold asarray. rewrite E. destruct (Nat.eqb_spec (a_dtype a) dt) as [D|D].
  - cbn [fst snd]. split; [|apply read_only_content]. unfold read_only. rewrite E. eexists. cbn [h_arrays]. rewrite nth_error_upd, Nat.eqb_refl.
    rewrite (proj2 (Nat.ltb_lt _ _)) by (apply nth_error_Some; congruence). cbn [andb]. split; [reflexivity|]. cbn [a_mem]. split; [now apply (OK r)|]. intros q b Eb M. cbn in Eb.
    rewrite nth_error_upd in Eb. destruct (Nat.eqb_spec r q) as [->|N].
    + rewrite (proj2 (Nat.ltb_lt _ _)) in Eb by (apply nth_error_Some; congruence). inversion Eb. reflexivity.
    + apply (A D q b Eb M). congruence.
  - split; [now apply alloc_fixed|]. rewrite read_only_content, alloc_content. rewrite <- (map_id (content h r)) at 2. apply map_ext_in. exact CA.
Qed.

Lemma alone_some h dt r : copied_or_alone h dt r -> exists a, nth_error (h_arrays h) r = Some a.
Proof. intros (a & E & _). now exists a. Qed.

Lemma protect_next h h0 dt r : heap_ok h0 -> ext h0 h -> copied_or_alone h0 dt r -> (forall z, In z (content h0 r) -> cast dt z = z) ->
  let h1 := fst (asarray h dt r) in let r1 := snd (asarray h dt r) in
  ext h0 (read_only h1 r1) /\ fixed_ref (read_only h1 r1) r1 /\ content (read_only h1 r1) r1 = content h0 r.
Proof.
  intros OK X A C h1 r1. assert (EC : content h r = content h0 r) by (apply ext_content; [exact OK|exact X|eapply alone_some; eauto]).
  destruct (protect h dt r) as (F & CC); [now apply X|eapply alone_ext; eauto|now rewrite EC|]. fold h1 r1 in F, CC. split; [|split; [exact F|congruence]].
  eapply ext_trans; [exact X|]. eapply ext_trans; [apply asarray_ext|]. apply read_only_ext.
Qed.

Lemma C93_proof : forall h ft ri d c h' t l, heap_ok h -> copied_or_alone h 8 ft -> copied_or_alone h 32 ri -> copied_or_alone h 8 d ->
  (forall z, In z (content h ft) -> cast 8 z = z) -> (forall z, In z (content h ri) -> cast 32 z = z) -> (forall z, In z (content h d) -> cast 8 z = z) ->
  new_table h ft ri d c = (h', t) ->
  let now := acts h' l in
  (content now (t_types t) = content h ft /\ ~ writeable now (t_types t)) /\ (content now (t_ri t) = content h ri /\ ~ writeable now (t_ri t)) /\
  (content now (t_data t) = content h d /\ ~ writeable now (t_data t)).
Proof.
  intros h ft ri d c h' t l OK A1 A2 A3 C1 C2 C3 E now. unfold new_table in E.
  pose proof (protect_next h h 8 ft OK (ext_refl h) A1 C1) as P1. cbv zeta in P1. destruct (asarray h 8 ft) as (h1 & r1). cbn [fst snd] in P1. destruct P1 as (X1 & F1 & K1). set (h2 := read_only h1 r1) in *.
  pose proof (protect_next h2 h 32 ri OK X1 A2 C2) as P2. pose proof (asarray_ext h2 32 ri) as Y2. cbv zeta in P2. destruct (asarray h2 32 ri) as (h3 & r3). cbn [fst snd] in P2, Y2. destruct P2 as (X2 & F2 & K2).
  pose proof (ext_trans _ _ _ Y2 (read_only_ext h3 r3)) as Z2. set (h4 := read_only h3 r3) in *.
  pose proof (protect_next h4 h 8 d OK X2 A3 C3) as P3. pose proof (asarray_ext h4 8 d) as Y3. cbv zeta in P3. destruct (asarray h4 8 d) as (h5 & r5). cbn [fst snd] in P3, Y3. destruct P3 as (X3 & F3 & K3).
  pose proof (ext_trans _ _ _ Y3 (read_only_ext h5 r5)) as Z3. set (h6 := read_only h5 r5) in *.
  assert (E7 : ext h6 (fst (match c with None => alloc h6 16 [] | Some r => (h6, r) end))) by (destruct c; [apply ext_refl|apply alloc_ext]).
  destruct (match c with None => alloc h6 16 [] | Some r => (h6, r) end) as (h7 & r7). cbn [fst] in E7.
  pose proof (asarray_ext h7 16 r7) as E8. destruct (asarray h7 16 r7) as (h8 & r8). cbn [fst] in E8. inversion E; subst h' t. cbn [t_types t_ri t_data].
  assert (S6 : safe h6 now) by (eapply safe_trans; [apply ext_safe; eapply ext_trans; eauto|apply acts_safe]).
  assert (S4 : safe h4 now) by (eapply safe_trans; [apply ext_safe, Z3|exact S6]).
  assert (S2 : safe h2 now) by (eapply safe_trans; [apply ext_safe, Z2|exact S4]).
  destruct (fixed_content h2 now r1 S2 F1) as (Q1 & G1). destruct (fixed_content h4 now r3 S4 F2) as (Q2 & G2). destruct (fixed_content h6 now r5 S6 F3) as (Q3 & G3).
  split; [|split]; (split; [congruence|now apply fixed_not_writeable]).
Qed.

Lemma C93_caller_proof : forall h ft ri d c h' t a, nth_error (h_arrays h) d = Some a -> a_dtype a = 8 -> new_table h ft ri d c = (h', t) ->
  t_data t = d /\ forall i z, write h' d i z = Raise ValueError.
Proof.
  intros h ft ri d c h' t a E D N. unfold new_table in N.
  pose proof (asarray_ext h 8 ft) as E1. destruct (asarray h 8 ft) as (h1 & r1). cbn [fst] in E1. pose proof (read_only_ext h1 r1) as E2. set (h2 := read_only h1 r1) in *.
  pose proof (asarray_ext h2 32 ri) as E3. destruct (asarray h2 32 ri) as (h3 & r3). cbn [fst] in E3. pose proof (read_only_ext h3 r3) as E4. set (h4 := read_only h3 r3) in *.
  assert (X4 : ext h h4) by eauto 8 using ext_trans. destruct (ex_kept _ _ X4 d a E) as (a4 & Ea4 & D4 & _).
  assert (AS : asarray h4 8 d = (h4, d)) by (unfold asarray; rewrite Ea4, (proj2 (Nat.eqb_eq _ _)) by congruence; reflexivity). rewrite AS in N.
  assert (E6 : exists a6, nth_error (h_arrays (read_only h4 d)) d = Some a6 /\ a_write a6 = false).
  { unfold read_only. rewrite Ea4. cbn [h_arrays]. rewrite nth_error_upd, Nat.eqb_refl, (proj2 (Nat.ltb_lt _ _)) by (apply nth_error_Some; congruence). eexists. split; [reflexivity|reflexivity]. }
  set (h6 := read_only h4 d) in *.
  assert (E7 : ext h6 (fst (match c with None => alloc h6 16 [] | Some r => (h6, r) end))) by (destruct c; [apply ext_refl|apply alloc_ext]).
  destruct (match c with None => alloc h6 16 [] | Some r => (h6, r) end) as (h7 & r7). cbn [fst] in E7.
  pose proof (asarray_ext h7 16 r7) as E8. destruct (asarray h7 16 r7) as (h8 & r8). cbn [fst] in E8. inversion N; subst h' t. split; [reflexivity|]. intros i z.
  destruct E6 as (a6 & Ea6 & W6). destruct (ex_kept _ _ (ext_trans _ _ _ E7 E8) d a6 Ea6) as (a8 & Ea8 & _ & _ & _ & W8). unfold write. rewrite Ea8.
  destruct (a_write a8) eqn:W; [|reflexivity]. rewrite (W8 eq_refl) in W6. discriminate.
Qed.

(** An int8 matrix and one of its rows, arrays of the other kinds, and categorical data. *)
Definition heap0 : heap :=
  Heap [Arr 8 0 [0; 1] true; Arr 64 1 [0; 1; 2] true; Arr 8 2 [0; 1; 2; 3] true; Arr 8 2 [2; 3] true; Arr 16 3 [0; 1] true; Arr 64 4 [0; 1; 2; 3] true]
    [[1; 1]; [0; 1; 2]; [1; 0; 2; 5]; [0; 1]; [1; 0; 2; 5]]%Z.
Lemma heap0_ok : heap_ok heap0.
Proof. intros r a E. do 6 (destruct r as [|r]; [inversion E; cbn; lia|]). destruct r; discriminate. Qed.

Lemma C93_views_proof : exists h ft ri d r i z h' t h'', heap_ok h /\ (forall x, In x (content h d) -> cast 8 x = x) /\ new_table h ft ri d None = (h', t) /\
  write h' r i z = Ok h'' /\ content h' (t_data t) = content h d /\ content h'' (t_data t) <> content h d.
Proof.
  exists heap0, 0, 1, 2, 3, 1, 7%Z. eexists _, _, _. split; [exact heap0_ok|]. split; [intros x I; cbn in I; repeat (destruct I as [<-|I]; [reflexivity|]); destruct I|].
  split; [reflexivity|]. split; [reflexivity|]. split; [reflexivity|]. discriminate.
Qed.
Lemma C93_categorical_proof : exists h ft ri d c h' t h'', heap_ok h /\ new_table h ft ri d (Some c) = (h', t) /\
  write h' (t_cat t) 0 1 = Ok h'' /\ content h'' (t_cat t) <> content h' (t_cat t).
Proof. exists heap0, 0, 1, 5, 4. eexists _, _, _. split; [exact heap0_ok|]. split; [reflexivity|]. split; [reflexivity|]. discriminate. Qed.

Lemma C93_case_proof : heap_ok heap0 /\ copied_or_alone heap0 8 0 /\ copied_or_alone heap0 32 1 /\ copied_or_alone heap0 8 5 /\
  (forall z, In z (content heap0 0) -> cast 8 z = z) /\ (forall z, In z (content heap0 1) -> cast 32 z = z) /\ (forall z, In z (content heap0 5) -> cast 8 z = z) /\
  content heap0 5 = [1; 0; 2; 5]%Z.
Proof.
  split; [exact heap0_ok|]. split.
  { eexists. split; [reflexivity|]. intros _ r a E M N. do 6 (destruct r as [|r]; [inversion E; subst; cbn in M; lia|]). destruct r; discriminate. }
  split. { eexists. split; [reflexivity|]. intros D. discriminate D. } split. { eexists. split; [reflexivity|]. intros D. discriminate D. }
  split; [|split; [|split; [|reflexivity]]]; intros x I; cbn in I; repeat (destruct I as [<-|I]; [reflexivity|]); destruct I.
Qed.

(** With copies. *)
Lemma alloc_arrays h dt l r : r < length (h_arrays h) -> nth_error (h_arrays (read_only (fst (alloc h dt l)) (snd (alloc h dt l)))) r = nth_error (h_arrays h) r.
Proof.
  intros Hr. unfold alloc, read_only. cbn [fst snd h_arrays h_mem]. rewrite nth_error_snoc, Nat.ltb_irrefl, Nat.eqb_refl. cbn [h_arrays]. rewrite nth_error_upd.
  destruct (Nat.eqb_spec (length (h_arrays h)) r); [lia|]. cbn [andb]. now apply nth_error_app1.
Qed.
Lemma copy_next h0 h dt l : heap_ok h0 -> ext h0 h -> (forall z, In z l -> cast dt z = z) ->
  let h1 := fst (alloc h dt l) in let r1 := snd (alloc h dt l) in let h2 := read_only h1 r1 in
  ext h0 h2 /\ ext h h2 /\ fixed_ref h2 r1 /\ content h2 r1 = l /\ (forall r, r < length (h_arrays h0) -> nth_error (h_arrays h2) r = nth_error (h_arrays h) r).
Proof.
  intros OK X C h1 r1 h2. assert (Y : ext h h2) by (eapply ext_trans; [apply alloc_ext|apply read_only_ext]).
  split; [eapply ext_trans; eauto|]. split; [exact Y|]. split; [apply alloc_fixed; now apply X|]. split.
  { unfold h2. rewrite read_only_content. unfold h1, r1. rewrite alloc_content. rewrite <- (map_id l) at 2. now apply map_ext_in. }
  intros r Hr. unfold h2, h1, r1. apply alloc_arrays. destruct (nth_error (h_arrays h0) r) as [a|] eqn:E; [|apply nth_error_None in E; lia].
  destruct (ex_kept _ _ X r a E) as (a' & E' & _). apply nth_error_Some. congruence.
Qed.
Lemma C93_repaired_proof : forall h ft ri d c h' t l, heap_ok h -> (forall r, In r [ft; ri; d; c] -> r < length (h_arrays h)) ->
  (forall z, In z (content h ft) -> cast 8 z = z) -> (forall z, In z (content h ri) -> cast 32 z = z) ->
  (forall z, In z (content h d) -> cast 8 z = z) -> (forall z, In z (content h c) -> cast 16 z = z) ->
  repaired_new_table h ft ri d (Some c) = (h', t) ->
  (forall r, r < length (h_arrays h) -> content h' r = content h r /\ (writeable h' r <-> writeable h r)) /\
  let now := acts h' l in
  content now (t_types t) = content h ft /\ content now (t_ri t) = content h ri /\ content now (t_data t) = content h d /\ content now (t_cat t) = content h c.
Proof.
  intros h ft ri d c h' t l OK IN C1 C2 C3 C4 E. unfold repaired_new_table in E.
  assert (SM : forall r, r < length (h_arrays h) -> exists a, nth_error (h_arrays h) r = Some a).
  { intros r Hr. destruct (nth_error (h_arrays h) r) as [a|] eqn:X; [now exists a|]. apply nth_error_None in X. lia. }
  pose proof (copy_next h h 8 (content h ft) OK (ext_refl h) C1) as P1. cbv zeta in P1. destruct (alloc h 8 (content h ft)) as (h1 & r1). cbn [fst snd] in P1. set (h2 := read_only h1 r1) in *. destruct P1 as (X1 & Y1 & F1 & K1 & A1).
  assert (Q2 : content h2 ri = content h ri) by (apply ext_content; auto; apply SM, IN; cbn; auto). rewrite <- Q2 in C2.
  pose proof (copy_next h h2 32 (content h2 ri) OK X1 C2) as P2. cbv zeta in P2. destruct (alloc h2 32 (content h2 ri)) as (h3 & r3). cbn [fst snd] in P2. set (h4 := read_only h3 r3) in *. destruct P2 as (X2 & Y2 & F2 & K2 & A2).
  assert (Q3 : content h4 d = content h d) by (apply ext_content; auto; apply SM, IN; cbn; auto). rewrite <- Q3 in C3.
  pose proof (copy_next h h4 8 (content h4 d) OK X2 C3) as P3. cbv zeta in P3. destruct (alloc h4 8 (content h4 d)) as (h5 & r5). cbn [fst snd] in P3. set (h6 := read_only h5 r5) in *. destruct P3 as (X3 & Y3 & F3 & K3 & A3).
  assert (Q4 : content h6 c = content h c) by (apply ext_content; auto; apply SM, IN; cbn; auto). rewrite <- Q4 in C4.
  pose proof (copy_next h h6 16 (content h6 c) OK X3 C4) as P4. cbv zeta in P4. destruct (alloc h6 16 (content h6 c)) as (h7 & r7). cbn [fst snd] in P4. set (h8 := read_only h7 r7) in *. destruct P4 as (X4 & Y4 & F4 & K4 & A4).
  inversion E; subst h' t. cbn [t_types t_ri t_data t_cat]. split.
  { intros r Hr. split; [apply ext_content; auto|]. unfold writeable. rewrite A4, A3, A2, A1 by exact Hr. tauto. }
  cbv zeta. set (now := acts h8 l). assert (S8 : safe h8 now) by apply acts_safe.
  assert (S6 : safe h6 now) by (eapply safe_trans; [apply ext_safe, Y4|exact S8]). assert (S4 : safe h4 now) by (eapply safe_trans; [apply ext_safe, Y3|exact S6]).
  assert (S2 : safe h2 now) by (eapply safe_trans; [apply ext_safe, Y2|exact S4]).
  pose proof (proj1 (fixed_content h2 now r1 S2 F1)). pose proof (proj1 (fixed_content h4 now r3 S4 F2)). pose proof (proj1 (fixed_content h6 now r5 S6 F3)). pose proof (proj1 (fixed_content h8 now r7 S8 F4)).
  repeat split; congruence.
Qed.
