From Coq Require Import String Ascii.
From Coq Require Import List Bool.
From Verif Require Import Base M_Config M_Cache L_Cache M_Pickle Spec_Pickle.
Import ListNotations.
Open Scope list_scope.

Lemma store_other d n m c : m <> n -> store d n c m = d m.
Proof. intros N. unfold store. destruct (String.eqb_spec m n); [contradiction|reflexivity]. Qed.
Lemma store_same d n c : store d n c n = Some c. Proof. unfold store. now rewrite String.eqb_refl. Qed.
Lemma perform_other {V} (lib : codecs V) d c n : ~ dumps_to n c -> n <> "/tmp/v1.json"%string -> perform lib d c n = d n.
Proof.
  intros ND N. destruct c as [v m|v]; cbn [perform].
  - assert (n <> m) by (intros ->; apply ND; now exists v). unfold pickle_dump. destruct (ends_with ".pkz" m); [destruct (lib_pickle lib v); now apply store_other|].
    destruct (ends_with ".jz" m); [destruct (lib_encode lib v); now apply store_other|reflexivity].
  - unfold fingerprint. destruct (lib_encode lib v); [now apply store_other|reflexivity].
Qed.
Lemma history_other {V} (lib : codecs V) l : forall d n, (forall c, In c l -> ~ dumps_to n c) -> n <> "/tmp/v1.json"%string -> fold_left (perform lib) l d n = d n.
Proof. induction l as [|c l IH]; intros d n H N; [reflexivity|]. cbn [fold_left]. rewrite IH; [|intros x I; apply H; now right|exact N]. apply perform_other; [apply H; now left|exact N]. Qed.

Lemma load_same {V} (lib : codecs V) n d d' : d n = d' n -> pickle_load lib n d = pickle_load lib n d'.
Proof. intros E. unfold pickle_load. now rewrite E. Qed.
Lemma dump_load {V} (lib : codecs V) v n d d' : codecs_ok lib -> pickle_dump lib v n d = (Ok tt, d') -> pickle_load lib n d' = Ok v /\ n <> "/tmp/v1.json"%string.
Proof.
  intros (P & J & G) E. unfold pickle_dump, pickle_load in *. destruct (ends_with ".pkz" n) eqn:E1.
  - destruct (lib_pickle lib v) as [s|] eqn:EP; [|discriminate]. inversion E. rewrite store_same, G. cbn. split; [now apply P|]. intros ->. discriminate E1.
  - destruct (ends_with ".jz" n) eqn:E2; [|discriminate]. destruct (lib_encode lib v) as [s|] eqn:EP; [|discriminate]. inversion E. rewrite store_same, G. cbn. split; [now apply J|]. intros ->. discriminate E2.
Qed.

Lemma C95_proof : forall V (lib : codecs V) d v name d' later, codecs_ok lib -> pickle_dump lib v name d = (Ok tt, d') ->
  (forall c, In c later -> ~ dumps_to name c) -> pickle_load lib name (fold_left (perform lib) later d') = Ok v.
Proof.
  intros V lib d v name d' later OK E H. destruct (dump_load lib v name d d' OK E) as (L & N). rewrite <- L. apply load_same. now apply history_other.
Qed.
Lemma C95_names_proof : forall V (lib : codecs V) v name d, ends_with ".pkz" name = false -> ends_with ".jz" name = false ->
  pickle_dump lib v name d = (Raise ValueError, d) /\ pickle_load lib name d = Raise ValueError.
Proof. intros V lib v name d A B. unfold pickle_dump, pickle_load. now rewrite A, B. Qed.
Lemma C95_cat_proof : forall V (lib : codecs V) d paths, (forall vs, cat lib paths d = (vs, Ok tt) <->
    Forall2 (fun p v => ends_with ".pkz" p = true /\ pickle_load lib p d = Ok v) paths vs) /\
  (forall before p after vs, paths = before ++ p :: after -> Forall2 (fun p v => ends_with ".pkz" p = true /\ pickle_load lib p d = Ok v) before vs ->
    ends_with ".pkz" p = false -> cat lib paths d = (vs, Raise AssertionError)).
Proof.
  intros V lib d paths. split.
  - induction paths as [|p paths IH]; intros vs.
    + cbn. split; [intros E; inversion E; constructor|intros F; inversion F; reflexivity].
    + cbn [cat]. split.
      * destruct (ends_with ".pkz" p) eqn:Ep; [|discriminate]. destruct (pickle_load lib p d) as [v|] eqn:El; [|discriminate]. destruct (cat lib paths d) as [pr r] eqn:Ec.
        intros E. inversion E; subst. constructor; [auto|]. now apply IH.
      * intros F. inversion F as [|? v ? vs' (Ep & El) F']; subst. rewrite Ep, El. apply IH in F'. now rewrite F'.
  - intros before. revert paths. induction before as [|b before IH]; intros paths p after vs -> F Ep.
    + inversion F. cbn. now rewrite Ep.
    + inversion F as [|? v ? vs' (Eb & El) F']; subst. cbn [app cat]. rewrite Eb, El. now rewrite (IH _ p after vs' eq_refl F' Ep).
Qed.
Lemma C95_fingerprint_proof : forall V (lib : codecs V) d d2 v w a b, codecs_ok lib -> fst (fingerprint lib v d) = Ok a -> fst (fingerprint lib w d2) = Ok b ->
  (forall s t, lib_encode lib v = Ok s -> lib_encode lib w = Ok t -> lib_sha1 lib s = lib_sha1 lib t -> s = t) -> (a = b <-> v = w).
Proof.
  intros V lib d d2 v w a b (_ & J & _) A B I. unfold fingerprint in *. destruct (lib_encode lib v) as [s|] eqn:Ev; [|discriminate]. destruct (lib_encode lib w) as [t|] eqn:Ew; [|discriminate].
  inversion A. inversion B. split.
  - intros E. pose proof (I s t eq_refl eq_refl E) as X. subst t. apply J in Ev. apply J in Ew. congruence.
  - intros ->. congruence.
Qed.

(** Numbers; 0 stands for an object that cannot be encoded. *)
Fixpoint underscores' (n : nat) : string := match n with O => EmptyString | S n => String "_"%char (underscores' n) end.
Definition lib0 : codecs nat := {|
  lib_pickle := fun v => match v with 0 => Raise TypeError | _ => Ok (underscores' v) end;
  lib_written := fun _ => "_"%string; lib_unpickle := fun s => Ok (String.length s);
  lib_encode := fun v => match v with 0 => Raise TypeError | _ => Ok (underscores' v) end;
  lib_decode := fun s => Ok (String.length s); lib_gzip := fun s => String "z"%char s;
  lib_gunzip := fun s => match s with String _ s => Ok s | EmptyString => Raise OSError end; lib_sha1 := fun s => s |}.
Lemma lib0_ok : codecs_ok lib0.
Proof.
  assert (L : forall n, String.length (underscores' n) = n) by (induction n; cbn; congruence).
  split; [|split]; [intros [|v] s E; inversion E; cbn; now rewrite L|intros [|v] s E; inversion E; cbn; now rewrite L|reflexivity].
Qed.
Lemma C95_case_proof : codecs_ok lib0 /\ exists d, pickle_dump lib0 3 "model.pkz" (fun _ => None) = (Ok tt, d) /\
  (forall c, In c [Dump 2 "model.jz"; Fingerprint 4; Dump 0 "data.pkz"; Dump 1 "model.txt"]%string -> ~ dumps_to "model.pkz" c).
Proof.
  split; [exact lib0_ok|]. eexists. split; [reflexivity|]. intros c I (v & ->). cbn in I. repeat (destruct I as [I|I]; [discriminate I|]). exact I.
Qed.
Lemma C95_failed_proof : exists d, pickle_load lib0 "a.pkz" d = Ok 3 /\ fst (pickle_dump lib0 0 "a.pkz" d) = Raise TypeError /\
  pickle_load lib0 "a.pkz" (snd (pickle_dump lib0 0 "a.pkz" d)) <> Ok 3 /\ pickle_load lib0 "a.jz" d = Ok 2 /\
  pickle_load lib0 "a.jz" (snd (pickle_dump lib0 0 "a.jz" d)) <> Ok 2.
Proof.
  exists (store (store (fun _ => None) "a.pkz" "z___") "a.jz" "z__"). split; [reflexivity|]. split; [reflexivity|]. split; [discriminate|]. split; [reflexivity|]. discriminate.
Qed.
Lemma C95_repaired_proof : forall V (lib : codecs V) v name d e d', repaired_pickle_dump lib v name d = (Raise e, d') -> d' = d /\ fst (pickle_dump lib v name d) = Raise e.
Proof.
  intros V lib v name d e d' E. unfold repaired_pickle_dump, pickle_dump in *. destruct (ends_with ".pkz" name); [destruct (lib_pickle lib v); inversion E; auto|].
  destruct (ends_with ".jz" name); [destruct (lib_encode lib v); inversion E; auto|inversion E; auto].
Qed.
Lemma C95_repaired_same_proof : forall V (lib : codecs V) v name d d', pickle_dump lib v name d = (Ok tt, d') -> repaired_pickle_dump lib v name d = (Ok tt, d').
Proof.
  intros V lib v name d d' E. unfold repaired_pickle_dump, pickle_dump in *. destruct (ends_with ".pkz" name); [destruct (lib_pickle lib v); inversion E; auto|].
  destruct (ends_with ".jz" name); [destruct (lib_encode lib v); inversion E; auto|inversion E; auto].
Qed.
