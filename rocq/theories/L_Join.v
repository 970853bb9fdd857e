From Coq Require Import String Ascii.
From Coq Require Import List Arith Lia Bool Permutation Sorted.
From Verif Require Import Base M_Config M_Cache M_Join Spec_Join L_Config L_Cache.
Import ListNotations.
Open Scope list_scope.
Open Scope nat_scope.

Lemma cell_eqb_eq : forall a b, cell_eqb a b = true <-> a = b.
Proof. intros [a|] [b|]; cbn; split; intros H; try discriminate H; auto.
  - apply String.eqb_eq in H. now subst.
  - inversion H. apply String.eqb_refl. Qed.
Lemma cell_eqb_refl : forall a, cell_eqb a a = true. Proof. intros; now apply cell_eqb_eq. Qed.
Lemma cell_eqb_sym : forall a b, cell_eqb a b = cell_eqb b a.
Proof. intros. apply eq_true_iff_eq. rewrite !cell_eqb_eq. split; congruence. Qed.
Lemma has_col_In : forall c l, has_col c l = true <-> In c l.
Proof. intros. unfold has_col. rewrite existsb_exists. split.
  - intros (x & I & E). apply String.eqb_eq in E. now subst.
  - intros I. exists c. split; [auto|apply String.eqb_refl]. Qed.
Lemma has_col_not : forall c l, has_col c l = false <-> ~ In c l.
Proof. intros. rewrite <- not_true_iff_false, has_col_In. tauto. Qed.
Lemma distinct_NoDup : forall l, distinct l = true <-> NoDup l.
Proof. induction l as [|x t IH]; cbn; [split; auto; constructor|].
  rewrite andb_true_iff, negb_true_iff, has_col_not, IH. split; [intros [A B]; now constructor|intros H; now inversion H]. Qed.

(** what a row has in column [c] *)
Definition look (Z : list string) (row : list cell) (c : string) : cell :=
  match place c Z with Some i => nth i row None | None => None end.

Lemma place_Some : forall c Z, In c Z -> exists i, place c Z = Some i /\ i < length Z /\ nth i Z EmptyString = c.
Proof. induction Z as [|x t IH]; [intros []|]. intros I. cbn. destruct (String.eqb c x) eqn:E.
  - apply String.eqb_eq in E. subst. exists 0. split; [auto|]. split; [cbn; lia|auto].
  - destruct I as [-> | I]; [rewrite String.eqb_refl in E; discriminate E|].
    destruct (IH I) as (i & P & L & N). rewrite P. exists (Datatypes.S i). split; [auto|]. split; [cbn; lia|auto]. Qed.
Lemma place_None : forall c Z, ~ In c Z -> place c Z = None.
Proof. induction Z as [|x t IH]; intros N; [auto|]. cbn. destruct (String.eqb c x) eqn:E.
  - apply String.eqb_eq in E. subst. destruct N. now left.
  - rewrite IH; [auto|intros I; apply N; now right]. Qed.
Lemma place_In : forall c Z i, place c Z = Some i -> In c Z.
Proof. intros. destruct (in_dec string_dec c Z); [auto|]. rewrite place_None in H; [discriminate H|auto]. Qed.
Lemma look_cons : forall c x Z v row, look (x :: Z) (v :: row) c = if String.eqb c x then v else look Z row c.
Proof. intros. unfold look. cbn. destruct (String.eqb c x); [auto|]. now destruct (place c Z). Qed.
Lemma look_nil : forall row c, look [] row c = None. Proof. reflexivity. Qed.
Lemma look_out : forall Z row c, ~ In c Z -> look Z row c = None.
Proof. intros. unfold look. now rewrite place_None. Qed.
Lemma look_map : forall h Z c, In c Z -> look Z (map h Z) c = h c.
Proof. induction Z as [|x t IH]; intros c I; [destruct I|]. cbn [map]. rewrite look_cons. destruct (String.eqb c x) eqn:E.
  - apply String.eqb_eq in E. now subst.
  - destruct I as [-> | I]; [rewrite String.eqb_refl in E; discriminate E|auto]. Qed.
Lemma look_row : forall Z row, NoDup Z -> length row = length Z -> map (look Z row) Z = row.
Proof. induction Z as [|x t IH]; intros [|v row] N L; try discriminate L; [auto|]. cbn [map]. rewrite look_cons, String.eqb_refl. f_equal.
  inversion N; subst. rewrite <- (IH row) at 2; [|auto|cbn in L; lia]. apply map_ext_in. intros c I. rewrite look_cons.
  destruct (String.eqb c x) eqn:E; [|auto]. apply String.eqb_eq in E. subst. contradiction. Qed.
Lemma look_app_l : forall A B a b c, length a = length A -> In c A -> look (A ++ B) (a ++ b) c = look A a c.
Proof. induction A as [|x t IH]; intros B [|v a] b c L I; try discriminate L; [destruct I|]. cbn [app]. rewrite !look_cons.
  destruct (String.eqb c x) eqn:E; [auto|]. destruct I as [-> | I]; [rewrite String.eqb_refl in E; discriminate E|]. apply IH; [cbn in L; lia|auto]. Qed.
Lemma look_app_r : forall A B a b c, length a = length A -> ~ In c A -> look (A ++ B) (a ++ b) c = look B b c.
Proof. induction A as [|x t IH]; intros B [|v a] b c L I; try discriminate L; [auto|]. cbn [app]. rewrite !look_cons.
  destruct (String.eqb c x) eqn:E; [apply String.eqb_eq in E; subst; destruct I; now left|]. apply IH; [cbn in L; lia|intros J; apply I; now right]. Qed.
Lemma look_inj : forall (s : string -> string) g D c, (forall a b, In a D -> In b D -> s a = s b -> a = b) -> In c D -> look (map s D) (map g D) (s c) = g c.
Proof. induction D as [|x t IH]; intros c J I; [destruct I|]. cbn [map]. rewrite look_cons. destruct (String.eqb (s c) (s x)) eqn:E.
  - apply String.eqb_eq in E. now rewrite (J c x I (or_introl eq_refl) E).
  - destruct I as [-> | I]; [rewrite String.eqb_refl in E; discriminate E|]. apply IH; [|auto]. intros a b Ia Ib. apply J; now right. Qed.
Lemma field_look : forall df row c, length row = length (f_cols df) -> field df row c = look (f_cols df) row c.
Proof. intros df row c. unfold field. generalize (f_cols df) as Z. intros Z. revert row. induction Z as [|x t IH]; intros [|v row] L; try discriminate L; [auto|].
  cbn [combine find fst]. rewrite look_cons. destruct (String.eqb c x); [auto|]. apply IH. cbn in L; lia. Qed.

(** deleting a column *)
Lemma drop_place : forall c Z i, NoDup Z -> place c Z = Some i -> drop_at i Z = filter (fun z => negb (String.eqb z c)) Z.
Proof. induction Z as [|x t IH]; intros i N P; [discriminate P|]. inversion N; subst. cbn in P |- *. rewrite (String.eqb_sym x c).
  destruct (String.eqb c x) eqn:E.
  - inversion P; subst. cbn. apply String.eqb_eq in E. subst x. symmetry. clear IH P N. induction t as [|y t IH]; [auto|]. cbn.
    destruct (String.eqb y c) eqn:E; [apply String.eqb_eq in E; subst; destruct H1; now left|]. cbn. f_equal. apply IH; [intros I; apply H1; now right|now inversion H2].
  - cbn. destruct (place c t) as [j|] eqn:Q; inversion P; subst. cbn. f_equal. apply IH; auto. Qed.
Lemma drop_map : forall {A B} (h : A -> B) i l, drop_at i (map h l) = map h (drop_at i l).
Proof. induction i; intros [|x t]; cbn; auto. now rewrite IHi. Qed.
Lemma upd_place : forall (h : string -> cell) c v Z i, NoDup Z -> place c Z = Some i -> upd (map h Z) i v = map (fun z => if String.eqb z c then v else h z) Z.
Proof. induction Z as [|x t IH]; intros i N P; [discriminate P|]. inversion N; subst. cbn in P |- *. rewrite (String.eqb_sym x c).
  destruct (String.eqb c x) eqn:E.
  - inversion P; subst. cbn. f_equal. apply String.eqb_eq in E. subst x. apply map_ext_in. intros z I. destruct (String.eqb z c) eqn:E; [|auto].
    apply String.eqb_eq in E. subst. contradiction.
  - destruct (place c t) as [j|] eqn:Q; inversion P; subst. cbn. f_equal. apply IH; auto. Qed.
Lemma nth_place : forall (h : string -> cell) c Z i, place c Z = Some i -> nth i (map h Z) None = h c.
Proof. intros h c Z i P. pose proof (look_map h Z c (place_In _ _ _ P)) as L. unfold look in L. now rewrite P in L. Qed.

(** names *)
Lemma slen_app : forall a b, String.length (a ++ b) = String.length a + String.length b.
Proof. induction a; intros; cbn; auto. Qed.
Lemma sub_all : forall a b, substring 0 (String.length a) (a ++ b) = a.
Proof. induction a; intros; cbn; [now destruct b|]. now rewrite IHa. Qed.
Section Suffix.
Variable sfx : string.
Lemma chop_app : forall a, chop sfx (a ++ sfx)%string = a.
Proof. intros. unfold chop. rewrite slen_app. replace (String.length a + String.length sfx - String.length sfx) with (String.length a) by lia. apply sub_all. Qed.
Lemma ends_inv : forall s w, ends_with s w = true -> exists a, w = (a ++ s)%string.
Proof. intros s w. induction w as [|x t IH]; cbn [ends_with]; rewrite orb_true_iff.
  - intros [E|E]; [|discriminate E]. apply String.eqb_eq in E. subst. now exists EmptyString.
  - intros [E|E]; [apply String.eqb_eq in E; subst; now exists EmptyString|]. destruct (IH E) as (a & ->). now exists (String x a). Qed.

Lemma Forall2_imp : forall {A B} (P Q : A -> B -> Prop) l m, (forall a b, P a b -> Q a b) -> Forall2 P l m -> Forall2 Q l m.
Proof. induction 2; constructor; auto. Qed.

(** the loop over the columns *)
Definition as_rows (Z : list string) (hs : list (cell * (string -> cell))) : list (cell * list cell) := map (fun '(k, h) => (k, map h Z)) hs.
Definition plain (c : string) : Prop := ends_with sfx c = false.
Definition jn (c : string) : string := (c ++ sfx)%string.
Lemma jn_ends : forall c, ends_with sfx (jn c) = true. Proof. intros. apply ends_app. Qed.
Lemma chop_jn : forall c, chop sfx (jn c) = c. Proof. intros. apply chop_app. Qed.
Lemma jn_inj : forall a b, jn a = jn b -> a = b. Proof. unfold jn. intros a b H. rewrite <- (chop_app a), H. apply chop_app. Qed.

Definition blended (T : list string) (h : string -> cell) (c : string) : cell := if has_col (jn c) T then fillna (h c) (h (jn c)) else h c.

Lemma merge_fold : forall dc T Z hs, NoDup Z -> NoDup T -> incl T Z ->
  (forall r, In r T -> ends_with sfx r = true -> exists l, r = jn l /\ In l Z /\ In l dc /\ plain l) ->
  exists Z' hs', foldM (merge_column sfx dc) T {| i_cols := Z; i_rows := as_rows Z hs |} = Ok {| i_cols := Z'; i_rows := as_rows Z' hs' |} /\
    Z' = filter (fun z => negb (ends_with sfx z && has_col z T)) Z /\ map fst hs' = map fst hs /\
    Forall2 (fun a b => fst b = fst a /\ forall c, plain c -> snd b c = blended T (snd a) c) hs hs'.
Proof.
  intros dc T. induction T as [|r T IH]; intros Z hs NZ NT IN HT.
  - exists Z, hs. split; [reflexivity|]. split; [|split; [auto|]].
    + symmetry. rewrite (filter_ext _ (fun _ => true)); [|intros z; cbn; now rewrite andb_false_r]. induction Z as [|z t IHZ]; [auto|]. cbn. f_equal. apply IHZ; [now inversion NZ|intros ? []|intros ? []].
    + clear. induction hs; constructor; auto.
  - inversion NT as [|? ? NI NT']; subst. cbn [foldM].
    destruct (ends_with sfx r) eqn:E.
    + destruct (HT r (or_introl eq_refl) E) as (l & -> & Il & Id & Pl).
      unfold merge_column at 1. cbn [i_cols i_rows]. rewrite E. cbv zeta. rewrite chop_jn.
      assert (HC : has_col l dc = true) by now apply has_col_In. rewrite HC.
      destruct (place_Some l Z Il) as (i & Pi & _). destruct (place_Some (jn l) Z (IN _ (or_introl eq_refl))) as (j & Pj & _). rewrite Pi.
      rewrite Pj. cbn [bind].
      assert (NE : l <> jn l) by (intros X; unfold plain in Pl; rewrite X, jn_ends in Pl; discriminate Pl).
      set (Z1 := filter (fun z => negb (String.eqb z (jn l))) Z).
      set (f := fun (h : string -> cell) z => if String.eqb z l then fillna (h l) (h (jn l)) else h z).
      assert (R1 : map (fun '(k, row) => (k, drop_at j (upd row i (fillna (nth i row None) (nth j row None))))) (as_rows Z hs) = as_rows Z1 (map (fun '(k, h) => (k, f h)) hs)).
      { unfold as_rows. rewrite !map_map. apply map_ext. intros [k h]. cbv beta iota. f_equal. transitivity (drop_at j (upd (map h Z) i (fillna (h l) (h (jn l))))); [f_equal; f_equal; f_equal; apply nth_place; assumption|].
        rewrite (upd_place h l _ Z i NZ Pi), drop_map. fold (f h). now rewrite (drop_place (jn l) Z j NZ Pj). }
      rewrite R1, (drop_place (jn l) Z j NZ Pj). fold Z1.
      destruct (IH Z1 (map (fun '(k, h) => (k, f h)) hs)) as (Z' & hs' & EQ & EZ & EK & F); auto.
      { now apply NoDup_filter. }
      { intros z Iz. apply filter_In. split; [apply IN; now right|]. apply negb_true_iff, String.eqb_neq. intros ->. contradiction. }
      { intros r' Ir Er. destruct (HT r' (or_intror Ir) Er) as (l' & -> & Il' & Id' & Pl'). exists l'. split; [auto|]. split; [|auto]. apply filter_In. split; [auto|].
        apply negb_true_iff, String.eqb_neq. intros X. unfold plain in Pl'. rewrite X, jn_ends in Pl'. discriminate Pl'. }
      exists Z', hs'. split; [exact EQ|]. split; [|split].
      * rewrite EZ. unfold Z1. clear. induction Z as [|z t IHt]; [auto|]. cbn [filter]. unfold has_col at 2. cbn [existsb]. fold (has_col z T).
        destruct (String.eqb z (jn l)) eqn:E; cbn [negb filter orb].
        -- apply String.eqb_eq in E. subst z. rewrite jn_ends. cbn. exact IHt.
        -- rewrite IHt. reflexivity.
      * rewrite EK, map_map. apply map_ext. now intros [].
      * clear EQ EZ EK. clear R1. revert hs' F. induction hs as [|[k h] hs IHh]; intros hs' F; inversion F; subst; constructor; [|now apply IHh].
        destruct H1 as [A B]. cbn [fst snd] in *. split; [auto|]. intros c Pc. rewrite B by auto. unfold blended, has_col at 2. cbn [existsb]. fold (has_col (jn c) T).
        destruct (String.eqb (jn c) (jn l)) eqn:E2; cbn [orb].
        -- apply String.eqb_eq, jn_inj in E2. subst c. assert (X : has_col (jn l) T = false) by now apply has_col_not. rewrite X. unfold f. now rewrite String.eqb_refl.
        -- assert (NC : String.eqb c l = false) by (apply String.eqb_neq; intros ->; rewrite String.eqb_refl in E2; discriminate E2).
           assert (NJ : String.eqb (jn c) l = false) by (apply String.eqb_neq; intros X; unfold plain in Pl; rewrite <- X, jn_ends in Pl; discriminate Pl).
           unfold f. now rewrite NC, NJ.
    + unfold merge_column at 1. rewrite E. cbn [bind]. destruct (IH Z hs) as (Z' & hs' & EQ & EZ & EK & F); auto.
      { intros z I; apply IN; now right. } { intros r' Ir; apply HT; now right. }
      exists Z', hs'. split; [exact EQ|]. split; [|split; [auto|]].
      * rewrite EZ. apply filter_ext. intros z. unfold has_col at 2. cbn [existsb]. fold (has_col z T). destruct (String.eqb z r) eqn:X; [|auto]. apply String.eqb_eq in X. subst. now rewrite E.
      * eapply Forall2_imp; [|exact F]. cbn. intros a b [A B]. split; [auto|]. intros c Pc. rewrite B by auto. unfold blended, has_col at 2. cbn [existsb]. fold (has_col (jn c) T).
        destruct (String.eqb (jn c) r) eqn:X; [|auto]. apply String.eqb_eq in X. subst r. rewrite jn_ends in E. discriminate E.
Qed.
End Suffix.
