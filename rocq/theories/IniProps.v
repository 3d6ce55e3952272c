(** * Input of initialisation: theorems of record *)
From Coq Require Import List Arith ZArith Lia Bool String Reals Lra.
From Verif Require Import RSum NMModel CellModel CellProps IniModel.
Import ListNotations.
Open Scope string_scope.
Open Scope list_scope.

(** What an entry stands for, and with which units. *)
Definition stands_for (e : entry) : list (what * string) :=
  match sort e with
  | File => [(WPositions, units e); (WMasses, ""); (WLabels, units e); (WCell, cell_units e)] ++ (if String.eqb (mode e) "chk" then [(WMomenta, "")] else [])
  | Positions => [(WPositions, units e)] | Velocities => [(WVelocities, units e)] | Momenta => [(WMomenta, units e)]
  | Masses => [(WMasses, units e)] | Labels => [(WLabels, units e)] | Cell => [(WCell, units e)] | Gle => [(WGle, units e)]
  end.
Definition own_mode (e : entry) : string := match sort e with Cell => if in_dec string_dec (mode e) ["abc"; "abcABC"] then "manual" else mode e | _ => mode e end.
(** What is refused: checkpoints for momenta, velocities and cells, and units for those. *)
Definition refused_class (e : entry) : Prop := mode e = "chk" /\ (sort e = Momenta \/ sort e = Velocities \/ sort e = Cell).
Definition refused_units (e : entry) : Prop := mode e = "chk" /\ units e <> "" /\ units e <> "automatic".
Ltac dest_is := unfold is; repeat match goal with |- context [String.eqb ?a ?b] => destruct (String.eqb_spec a b) end.
Theorem entry_read e : In (mode e) (options (sort e)) -> ~ refused_class e -> ~ refused_units e ->
  exists q, fetch_one e = Val q /\ q = map (fun p => (fst p, Init (own_mode e) (snd p) (index e) (bead e) (value e))) (stands_for e).
Proof.
  intros O C U. unfold fetch_one. cbv zeta.
  assert (G1 : is (mode e) "chk" && negb (takes_class (sort e)) = false).
  { unfold is. destruct (String.eqb_spec (mode e) "chk") as [M|]; [|reflexivity]. destruct (sort e) eqn:S; try reflexivity; exfalso; apply C; unfold refused_class; auto. }
  assert (G2 : is (mode e) "chk" && negb (is (units e) "" || is (units e) "automatic") = false).
  { unfold is. destruct (String.eqb_spec (mode e) "chk") as [M|]; [|reflexivity]. destruct (String.eqb_spec (units e) ""); [reflexivity|]. destruct (String.eqb_spec (units e) "automatic"); [reflexivity|].
    exfalso. now apply U. }
  rewrite G1, G2. eexists. split; [reflexivity|]. clear G1 G2 C U. unfold stands_for, own_mode, fetch_self, with_units, item. destruct (sort e) eqn:S; try reflexivity.
  - cbn [map fst snd]. destruct (in_dec string_dec (mode e) ["abc"; "abcABC"]) as [I|N].
    + destruct I as [<-|[<-|[]]]; reflexivity.
    + unfold is. destruct (String.eqb_spec (mode e) "abc"); [exfalso; apply N; cbn; auto|]. destruct (String.eqb_spec (mode e) "abcABC"); [exfalso; apply N; cbn; auto|]. reflexivity.
  - cbn in O. destruct O as [<-|[<-|[<-|[<-|[]]]]]; reflexivity.
Qed.
Theorem entry_refused e x : fetch_one e = Raise x <-> (x = TypeError /\ refused_class e) \/ (x = ValueError /\ refused_units e /\ ~ refused_class e).
Proof.
  unfold fetch_one, refused_class, refused_units. cbv zeta. unfold is. destruct (String.eqb_spec (mode e) "chk") as [M|N]; cbn [andb].
  - destruct (takes_class (sort e)) eqn:T; cbn [negb].
    + assert (C : ~ (sort e = Momenta \/ sort e = Velocities \/ sort e = Cell)) by (intros [X|[X|X]]; rewrite X in T; discriminate).
      destruct (String.eqb_spec (units e) ""); cbn [orb negb]; [split; [discriminate|intuition congruence]|].
      destruct (String.eqb_spec (units e) "automatic"); cbn [negb]; [split; [discriminate|intuition congruence]|].
      split; [intros E; injection E as <-; right; intuition congruence|]. intros [[-> [_ H]]|[-> _]]; [contradiction|reflexivity].
    + assert (C : sort e = Momenta \/ sort e = Velocities \/ sort e = Cell) by (destruct (sort e); try discriminate; auto).
      split; [intros E; injection E as <-; left; auto|]. intros [[-> _]|[_ [_ H]]]; [reflexivity|]. exfalso. now apply H.
  - split; [discriminate|]. intuition congruence.
Qed.
(** The queue: entry after entry; the first refused entry refuses the input. *)
Theorem queue_read l : Forall (fun e => In (mode e) (options (sort e)) /\ ~ refused_class e /\ ~ refused_units e) l ->
  fetch l = Val (flat_map (fun e => map (fun p => (fst p, Init (own_mode e) (snd p) (index e) (bead e) (value e))) (stands_for e)) l).
Proof. induction 1 as [|e l (O & C & U) _ IH]; [reflexivity|]. cbn [fetch flat_map]. destruct (entry_read e O C U) as (q & -> & ->). now rewrite IH. Qed.
Theorem queue_refused l : (exists x, fetch l = Raise x) <-> exists e, In e l /\ (refused_class e \/ refused_units e).
Proof.
  induction l as [|e l IH]; [split; [intros [x H]; discriminate|intros [e [[] _]]]|]. cbn [fetch]. destruct (fetch_one e) as [q|x] eqn:E.
  - destruct (fetch l) as [qs|y].
    + split; [intros [x H]; discriminate|]. intros [e' [[<-|I] R]].
      * exfalso. destruct R as [R|R]; [assert (X : fetch_one e = Raise TypeError) by (apply entry_refused; auto); congruence|].
        assert (X : exists x, fetch_one e = Raise x).
        { destruct R as (M & A & B). destruct (takes_class (sort e)) eqn:T.
          - exists ValueError. apply entry_refused. right. split; [reflexivity|]. split; [now repeat split|]. intros [_ [X|[X|X]]]; rewrite X in T; discriminate.
          - exists TypeError. apply entry_refused. left. split; [reflexivity|]. split; [exact M|]. destruct (sort e); try discriminate; auto. }
        destruct X as [x X]. congruence.
      * assert (X : exists x, Val qs = Raise (A := list (what * init)) x) by (apply IH; eauto). destruct X; discriminate.
    + split; [|intros _; now exists y]. intros _. destruct (proj1 IH (ex_intro _ y eq_refl)) as [e' [I R]]. exists e'. split; [now right|exact R].
  - split; [|intros _; now exists x]. intros _. exists e. split; [now left|]. apply entry_refused in E. tauto.
Qed.
(** A checkpoint is an allowed mode for momenta, velocities and cells, for the first two even the default, but fails. *)
Theorem checkpoint_entries_refuted : forall k, In k [Momenta; Velocities; Cell] -> exists e, sort e = k /\ In (mode e) (options k) /\ units e = "automatic" /\ fetch [e] = Raise TypeError.
Proof. intros k [<-|[<-|[<-|[]]]]; eexists (Entry _ "chk" "automatic" (-1) (-1) "automatic" "RESTART"); repeat split; cbn; auto 8. Qed.
Print Assumptions entry_read.
Print Assumptions entry_refused.
Print Assumptions queue_read.
Print Assumptions queue_refused.
Print Assumptions checkpoint_entries_refuted.

(** ** Cells *)
Open Scope R_scope.
(** The numbers that are accepted, and that what comes out is upper triangular. *)
Theorem cell_sizes m h : (exists x, cell_numbers m h = Raise x) <->
  List.length h <> (if string_dec m "abc" then 3 else if string_dec m "abcABC" then 6 else 9)%nat.
Proof.
  assert (K : forall h : list R, (exists x, manual h = Raise x) <-> List.length h <> 9%nat).
  { intros g. do 9 (destruct g as [|? g]; [cbn; split; [discriminate|intros _; now exists ValueError]|]). destruct g; cbn; split; try (intros [x E]; discriminate); try discriminate; try congruence. intros _. now exists ValueError. }
  unfold cell_numbers, is. destruct (String.eqb_spec m "abc") as [->|N1]; [|destruct (String.eqb_spec m "abcABC") as [->|N2]].
  - destruct (string_dec "abc" "abc"); [|easy]. do 3 (destruct h as [|? h]; [cbn; split; [discriminate|intros _; now exists ValueError]|]). destruct h; cbn; split; try (intros [x E]; discriminate); try discriminate; try congruence. intros _. now exists ValueError.
  - destruct (string_dec "abcABC" "abc"); [discriminate|]. destruct (string_dec "abcABC" "abcABC"); [|easy].
    do 6 (destruct h as [|? h]; [cbn; split; [discriminate|intros _; now exists ValueError]|]). destruct h; cbn; split; try (intros [x E]; discriminate); try discriminate; try congruence. intros _. now exists ValueError.
  - destruct (string_dec m "abc"); [contradiction|]. destruct (string_dec m "abcABC"); [contradiction|]. apply K.
Qed.
Definition entry_of (l : list R) (i j : nat) : R := nth (3 * i + j) l 0.
Theorem cell_upper m h l : cell_numbers m h = Val l -> List.length l = 9%nat /\ entry_of l 1 0 = 0 /\ entry_of l 2 0 = 0 /\ entry_of l 2 1 = 0.
Proof.
  assert (K : forall h, manual h = Val l -> List.length l = 9%nat /\ entry_of l 1 0 = 0 /\ entry_of l 2 0 = 0 /\ entry_of l 2 1 = 0).
  { intros g. do 9 (destruct g as [|? g]; [discriminate|]). destruct g; [|discriminate]. intros E. injection E as <-. now repeat split. }
  unfold cell_numbers. destruct (is m "abc"); [|destruct (is m "abcABC"); [|apply K]].
  - do 3 (destruct h as [|? h]; [discriminate|]). destruct h; [apply K|discriminate].
  - do 6 (destruct h as [|? h]; [discriminate|]). destruct h; [apply K|discriminate].
Qed.
(** Nine numbers are the entries on and above the diagonal. *)
Theorem cell_manual h : List.length h = 9%nat -> exists l, cell_numbers "manual" h = Val l /\ forall i j, (i <= j)%nat -> (j < 3)%nat -> entry_of l i j = entry_of h i j.
Proof.
  intros L. do 9 (destruct h as [|? h]; [discriminate|]). destruct h; [|discriminate]. eexists. split; [reflexivity|]. intros i j A B.
  assert (C : (i = 0 \/ i = 1 \/ i = 2)%nat) by lia. assert (D : (j = 0 \/ j = 1 \/ j = 2)%nat) by lia.
  destruct C as [->|[->| ->]], D as [->|[->| ->]]; try lia; reflexivity.
Qed.
(** Three lengths are a rectangular box. *)
Theorem cell_abc a b c : 0 < b -> 0 <= c -> cell_numbers "abc" [a; b; c] = Val [a; 0; 0; 0; b; 0; 0; 0; c].
Proof.
  intros B C. unfold cell_numbers. cbn [is String.eqb Ascii.eqb Bool.eqb]. unfold flat, abc2h, rows3. cbn [len_a len_b len_c ang_alpha ang_beta ang_gamma manual].
  rewrite cos_PI2, sin_PI2. repeat f_equal; try lra; try (field; lra).
  replace (c ^ 2 - (c * 0) ^ 2 - ((b * c * 0 - b * 0 * (c * 0)) / (b * 1)) ^ 2) with (c ^ 2) by (field; lra). now apply sqrt_pow2.
Qed.
(** Three lengths and three angles in degrees are those of the box. *)
Theorem cell_abcABC a b c x y z l : valid_abc (mk_abc a b c (x * PI / 180) (y * PI / 180) (z * PI / 180)) -> cell_numbers "abcABC" [a; b; c; x; y; z] = Val l ->
  h2abc_deg (entry_of l) = mk_abc a b c x y z.
Proof.
  intros V E. pose proof (abc_roundtrip _ V) as R. unfold cell_numbers in E. cbn [is String.eqb Ascii.eqb Bool.eqb manual flat] in E. injection E as <-.
  assert (P := PI_RGT_0). unfold h2abc_deg.
  match goal with |- context [h2abc ?h] => replace (h2abc h) with (mk_abc a b c (x * PI / 180) (y * PI / 180) (z * PI / 180)) end.
  cbn [len_a len_b len_c ang_alpha ang_beta ang_gamma]. f_equal; field; lra.
Qed.
Print Assumptions cell_sizes.
Print Assumptions cell_upper.
Print Assumptions cell_manual.
Print Assumptions cell_abc.
Print Assumptions cell_abcABC.
Example file_case : exists q, fetch [Entry File "chk" "automatic" (-1) (-1) "automatic" "RESTART"; Entry Momenta "thermal" "kelvin" (-1) (-1) "" "300"] = Val q /\ map fst q = [WPositions; WMasses; WLabels; WCell; WMomenta; WMomenta].
Proof. eexists. split; reflexivity. Qed.
Example abcABC_case : valid_abc (mk_abc 1 1 1 (90 * PI / 180) (90 * PI / 180) (90 * PI / 180)).
Proof.
  replace (90 * PI / 180) with (PI / 2) by field. assert (P := PI_RGT_0). unfold valid_abc. cbn [len_a len_b len_c ang_alpha ang_beta ang_gamma]. rewrite !cos_PI2. repeat split; lra.
Qed.
