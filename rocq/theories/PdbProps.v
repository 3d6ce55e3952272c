(* Properties of pdb files (C50). *)
From Coq Require Import String Ascii List Arith Bool ZArith Lia.
From Verif Require Import TextLib ValModel ValProps XyzModel XyzProps PdbModel.
Import ListNotations.
Local Open Scope string_scope.
Local Open Scope list_scope.

(* ---------------- numerals ---------------- *)

Lemma digit_cases n : (0 <= n < 10)%Z ->
  is_digit (digit n) = true /\ digit_val (digit n) = n /\ blank (digit n) = false /\
  Ascii.eqb "." (digit n) = false /\ Ascii.eqb "-" (digit n) = false /\ Ascii.eqb "+" (digit n) = false /\
  Ascii.eqb "L" (digit n) = false.
Proof.
  intros H.
  assert (C : (n = 0 \/ n = 1 \/ n = 2 \/ n = 3 \/ n = 4 \/ n = 5 \/ n = 6 \/ n = 7 \/ n = 8 \/ n = 9)%Z) by lia.
  repeat (destruct C as [-> | C]; [vm_compute; repeat split; reflexivity|]).
  subst n. vm_compute. repeat split; reflexivity.
Qed.

Lemma val_snoc l a : val (l ++ [a]) = (10 * val l + digit_val a)%Z.
Proof. unfold val. now rewrite fold_left_app. Qed.

Lemma val_app_digits l k : forall n, (0 <= n)%Z ->
  val (l ++ digits k n) = (val l * 10 ^ Z.of_nat k + n mod 10 ^ Z.of_nat k)%Z.
Proof.
  induction k as [|k IH]; intros n N.
  - cbn [digits]. rewrite app_nil_r. change (10 ^ Z.of_nat 0)%Z with 1%Z.
    rewrite Z.mod_1_r. lia.
  - cbn [digits]. rewrite app_assoc, val_snoc, IH by (apply Z.div_pos; lia).
    destruct (digit_cases (n mod 10)) as (_ & -> & _); [apply Z.mod_pos_bound; lia|].
    replace (Z.of_nat (S k)) with (1 + Z.of_nat k)%Z by lia.
    rewrite Z.pow_add_r by lia. change (10 ^ 1)%Z with 10%Z.
    rewrite (Z.rem_mul_r n 10) by lia. lia.
Qed.

Definition pow_bound f n := (0 <= n < 10 ^ (Z.of_nat f + 1))%Z.

Lemma val_dec f : forall n, pow_bound f n -> val (dec f n) = n.
Proof.
  induction f as [|f IH]; intros n [N B]; cbn [dec].
  - change (10 ^ (Z.of_nat 0 + 1))%Z with 10%Z in B. rewrite Z.mod_small by lia.
    destruct (digit_cases n) as (_ & E & _); [lia|]. unfold val. cbn [fold_left]. lia.
  - destruct (n <? 10)%Z eqn:E.
    + apply Z.ltb_lt in E. destruct (digit_cases n) as (_ & E' & _); [lia|].
      unfold val. cbn [fold_left]. lia.
    + apply Z.ltb_ge in E. rewrite val_snoc, IH.
      * destruct (digit_cases (n mod 10)) as (_ & -> & _); [apply Z.mod_pos_bound; lia|].
        symmetry. rewrite (Z.div_mod n 10) at 1 by lia. lia.
      * split; [apply Z.div_pos; lia|]. apply Z.div_lt_upper_bound; [lia|].
        replace (Z.of_nat (S f) + 1)%Z with (1 + (Z.of_nat f + 1))%Z in B by lia.
        rewrite Z.pow_add_r in B by lia. lia.
Qed.

Lemma show_bound n : (0 <= n)%Z -> pow_bound (Z.to_nat (Z.log2 n)) n.
Proof.
  intros N. split; [lia|]. rewrite Z2Nat.id by apply Z.log2_nonneg.
  destruct (Z.eq_dec n 0) as [-> |]; [reflexivity|].
  destruct (Z.log2_spec n) as [_ L]; [lia|]. rewrite <- Z.add_1_r in L.
  eapply Z.lt_le_trans; [exact L|]. apply Z.pow_le_mono_l. split; [lia|]. lia.
Qed.

Lemma val_show n : (0 <= n)%Z -> val (show_n n) = n.
Proof. intros N. apply val_dec. now apply show_bound. Qed.

(* digits only *)
Definition numeric (l : text) : Prop := exists ns, l = map digit ns /\ Forall (fun n => 0 <= n < 10)%Z ns.

Lemma numeric_app x y : numeric x -> numeric y -> numeric (x ++ y).
Proof.
  intros (a & -> & A) (b & -> & B). exists (a ++ b). rewrite map_app. split; auto.
  now apply Forall_app.
Qed.

Lemma numeric_one n : (0 <= n < 10)%Z -> numeric [digit n].
Proof. intros H. exists [n]. auto. Qed.

Lemma numeric_dec f : forall n, (0 <= n)%Z -> numeric (dec f n).
Proof.
  induction f as [|f IH]; intros n N; cbn [dec].
  - apply numeric_one. apply Z.mod_pos_bound. lia.
  - destruct (n <? 10)%Z eqn:E.
    + apply Z.ltb_lt in E. apply numeric_one. lia.
    + apply numeric_app; [apply IH; apply Z.div_pos; lia|].
      apply numeric_one. apply Z.mod_pos_bound. lia.
Qed.

Lemma numeric_digits k : forall n, (0 <= n)%Z -> numeric (digits k n).
Proof.
  induction k as [|k IH]; intros n N; cbn [digits]; [now exists []|].
  apply numeric_app; [apply IH; apply Z.div_pos; lia|].
  apply numeric_one. apply Z.mod_pos_bound. lia.
Qed.

Lemma numeric_facts l : numeric l ->
  forallb is_digit l = true /\ has "." l = false /\ has "L" l = false /\
  Forall (fun a => blank a = false) l /\
  (forall a r, l = a :: r -> Ascii.eqb "-" a = false /\ Ascii.eqb "+" a = false).
Proof.
  intros (ns & -> & F). induction F as [|n ns H F IH]; [cbn; repeat split; auto; easy|].
  destruct IH as (I1 & I2 & I3 & I4 & I5).
  destruct (digit_cases n H) as (D1 & D2 & D3 & D4 & D5 & D6 & D7).
  cbn [map forallb has]. rewrite D1, D4, D7, I1, I2, I3. repeat split; auto;
    now injection H0 as <- _.
Qed.

Lemma dec_not_nil f n : dec f n <> [].
Proof. destruct f; cbn; [easy|]. destruct (n <? 10)%Z; [easy|]. now destruct (dec f (n / 10)). Qed.

Lemma digits_length k : forall n, length (digits k n) = k.
Proof. induction k; intros n; cbn; [easy|]. rewrite app_length, IHk. cbn. lia. Qed.

Lemma dec_length f : forall n k, (0 <= n < 10 ^ (Z.of_nat k + 1))%Z -> length (dec f n) <= k + 1.
Proof.
  induction f as [|f IH]; intros n k B; cbn [dec]; [cbn; lia|].
  destruct (n <? 10)%Z eqn:E; [cbn; lia|]. apply Z.ltb_ge in E.
  destruct k as [|k]; [change (10 ^ (Z.of_nat 0 + 1))%Z with 10%Z in B; lia|].
  rewrite app_length. cbn [length]. enough (length (dec f (n / 10)) <= k + 1) by lia.
  apply IH. split; [apply Z.div_pos; lia|]. apply Z.div_lt_upper_bound; [lia|].
  replace (Z.of_nat (S k) + 1)%Z with (1 + (Z.of_nat k + 1))%Z in B by lia.
  rewrite Z.pow_add_r in B by lia. lia.
Qed.

(* the printed numeral has no outer blanks *)
Lemma not_blank_trim l : Forall (fun a => blank a = false) l -> trim blank l = true.
Proof.
  intros F. unfold trim. apply andb_true_iff. split.
  - destruct F; [easy|]. now rewrite H.
  - assert (G := Forall_rev' F). destruct G; [easy|]. now rewrite H.
Qed.

Lemma fixed_not_blank k z : Forall (fun a => blank a = false) (fixed k z).
Proof.
  unfold fixed. assert (P : (0 < 10 ^ Z.of_nat k)%Z) by (apply Z.pow_pos_nonneg; lia).
  repeat (apply Forall_app; split).
  - destruct (z <? 0)%Z; repeat constructor.
  - apply numeric_facts. apply numeric_dec. apply Z.div_pos; lia.
  - repeat constructor.
  - apply numeric_facts. apply numeric_digits. lia.
Qed.

Lemma read_fixed_core k z : read_float (fixed k z) = Some (z, k).
Proof.
  unfold read_float. rewrite strip_trim by (apply not_blank_trim, fixed_not_blank).
  assert (P : (0 < 10 ^ Z.of_nat k)%Z) by (apply Z.pow_pos_nonneg; lia).
  assert (NI : numeric (show_n (Z.abs z / 10 ^ Z.of_nat k))) by (apply numeric_dec; apply Z.div_pos; lia).
  assert (ND : numeric (digits k (Z.abs z))) by (apply numeric_digits; lia).
  destruct (numeric_facts _ NI) as (I1 & I2 & _ & _ & I5).
  destruct (numeric_facts _ ND) as (D1 & D2 & _ & _ & _).
  assert (NE : show_n (Z.abs z / 10 ^ Z.of_nat k) <> []) by apply dec_not_nil.
  assert (V : val (show_n (Z.abs z / 10 ^ Z.of_nat k) ++ digits k (Z.abs z)) = Z.abs z).
  { rewrite val_app_digits, val_show by (try apply Z.div_pos; lia).
    symmetry. rewrite (Z.div_mod (Z.abs z) (10 ^ Z.of_nat k)) at 1 by lia. lia. }
  assert (U : cut "." (show_n (Z.abs z / 10 ^ Z.of_nat k) ++ ["."%char] ++ digits k (Z.abs z)) =
              Some (show_n (Z.abs z / 10 ^ Z.of_nat k), digits k (Z.abs z))).
  { cbn [app]. now apply cut_app. }
  unfold fixed. destruct (z <? 0)%Z eqn:S.
  - cbn [app]. change (Ascii.eqb "-" "-") with true. cbv iota beta.
    change (true || Ascii.eqb "+" "-") with true. cbv iota.
    change ("."%char :: digits k (Z.abs z)) with (["."%char] ++ digits k (Z.abs z)).
    rewrite U, I1, D1. rewrite eqt_neq by (now destruct (show_n (Z.abs z / 10 ^ Z.of_nat k))).
    cbn [andb negb]. rewrite V, digits_length. f_equal. f_equal. apply Z.ltb_lt in S. lia.
  - cbn [app]. apply Z.ltb_ge in S.
    destruct (show_n (Z.abs z / 10 ^ Z.of_nat k)) as [|a r] eqn:E; [easy|].
    destruct (I5 a r eq_refl) as [M1 M2]. cbn [app] in *. rewrite M1, M2. cbn [orb].
    rewrite U, I1, D1. rewrite eqt_neq by easy. cbn [andb negb app].
    rewrite V, digits_length. f_equal. f_equal. lia.
Qed.

(* blanks around a numeral do not matter *)
Lemma read_fixed k z x y :
  Forall (fun a => blank a = true) x -> Forall (fun a => blank a = true) y ->
  read_float (x ++ fixed k z ++ y) = Some (z, k).
Proof.
  intros X Y. rewrite <- (read_fixed_core k z). unfold read_float.
  rewrite (strip_trim blank (fixed k z)) by (apply not_blank_trim, fixed_not_blank).
  rewrite strip_pad by (auto; apply not_blank_trim, fixed_not_blank). reflexivity.
Qed.

Lemma repeat_blank n : Forall (fun a => blank a = true) (repeat " "%char n).
Proof. induction n; constructor; auto. Qed.

Lemma rjust_length n w : length w <= n -> length (rjust n w) = n.
Proof. intros H. unfold rjust. rewrite app_length, repeat_length. lia. Qed.

Lemma fixed_length k z : length (fixed k z) =
  ((if (z <? 0)%Z then 1 else 0) + length (show_n (Z.abs z / 10 ^ Z.of_nat k)) + 1 + k)%nat.
Proof.
  unfold fixed. rewrite !app_length, digits_length. cbn [length].
  destruct (z <? 0)%Z; cbn [length]; lia.
Qed.

(* the coordinates whose numerals have at most seven characters *)
Definition narrow (z : Z) : Prop := (-99999 <= z <= 999999)%Z.

Lemma narrow_length z : narrow z -> length (fixed 3 z) <= 7.
Proof.
  intros [L U]. rewrite fixed_length. change (10 ^ Z.of_nat 3)%Z with 1000%Z. unfold show_n.
  destruct (z <? 0)%Z eqn:S.
  - apply Z.ltb_lt in S. pose proof (dec_length (Z.to_nat (Z.log2 (Z.abs z / 1000))) (Z.abs z / 1000) 1) as D.
    enough (0 <= Z.abs z / 1000 < 10 ^ (Z.of_nat 1 + 1))%Z by (specialize (D H); lia).
    change (10 ^ (Z.of_nat 1 + 1))%Z with 100%Z. split; [apply Z.div_pos; lia|].
    apply Z.div_lt_upper_bound; lia.
  - apply Z.ltb_ge in S. pose proof (dec_length (Z.to_nat (Z.log2 (Z.abs z / 1000))) (Z.abs z / 1000) 2) as D.
    enough (0 <= Z.abs z / 1000 < 10 ^ (Z.of_nat 2 + 1))%Z by (specialize (D H); lia).
    change (10 ^ (Z.of_nat 2 + 1))%Z with 1000%Z. split; [apply Z.div_pos; lia|].
    apply Z.div_lt_upper_bound; lia.
Qed.

(* side lengths up to 99999.999, angles up to 9999.99 *)
Definition side_ok (z : Z) : Prop := (0 <= z < 100000000)%Z.
Definition angle_ok (z : Z) : Prop := (0 <= z < 1000000)%Z.

Lemma side_length z : side_ok z -> length (fixed 3 z) <= 9.
Proof.
  intros [L U]. rewrite fixed_length. change (10 ^ Z.of_nat 3)%Z with 1000%Z. unfold show_n.
  destruct (z <? 0)%Z eqn:S; [apply Z.ltb_lt in S; lia|].
  pose proof (dec_length (Z.to_nat (Z.log2 (Z.abs z / 1000))) (Z.abs z / 1000) 4) as D.
  enough (0 <= Z.abs z / 1000 < 10 ^ (Z.of_nat 4 + 1))%Z by (specialize (D H); lia).
  change (10 ^ (Z.of_nat 4 + 1))%Z with 100000%Z. split; [apply Z.div_pos; lia|].
  apply Z.div_lt_upper_bound; lia.
Qed.

Lemma angle_length z : angle_ok z -> length (fixed 2 z) <= 7.
Proof.
  intros [L U]. rewrite fixed_length. change (10 ^ Z.of_nat 2)%Z with 100%Z. unfold show_n.
  destruct (z <? 0)%Z eqn:S; [apply Z.ltb_lt in S; lia|].
  pose proof (dec_length (Z.to_nat (Z.log2 (Z.abs z / 100))) (Z.abs z / 100) 3) as D.
  enough (0 <= Z.abs z / 100 < 10 ^ (Z.of_nat 3 + 1))%Z by (specialize (D H); lia).
  change (10 ^ (Z.of_nat 3 + 1))%Z with 10000%Z. split; [apply Z.div_pos; lia|].
  apply Z.div_lt_upper_bound; lia.
Qed.

(* ---------------- slices by length ---------------- *)

Lemma slice_at x y z a b : length x = a -> length y = (b - a)%nat -> (a <= b)%nat ->
  slice a b (x ++ y ++ z) = y.
Proof.
  intros <- L H. replace b with (length x + length y)%nat by lia. apply slice_mid.
Qed.

Lemma rjust_S n w : length w <= n -> rjust (S n) w = " "%char :: rjust n w.
Proof. intros H. unfold rjust. now rewrite Nat.sub_succ_l. Qed.

(* ---------------- one line ---------------- *)

Definition good_patom (a : patom) : Prop :=
  length (plabel a) <= 4 /\ trim blank (plabel a) = true /\
  narrow (px a) /\ narrow (py a) /\ narrow (pz a).

Definition as_read_atom (a : patom) : ratom :=
  RAtom (plabel a) (px a, 3) (py a, 3) (pz a, 3).

(* the thirty characters in front of the coordinates *)
Definition front (i : Z) (a : patom) : text :=
  tx "ATOM  " ++ rjust 5 (show_n i) ++ tx " " ++ rjust 4 (plabel a) ++ tx "   1     1    ".

Lemma line_front i a : print_atom_line i a =
  front i a ++ rjust 8 (fixed 3 (px a)) ++ rjust 8 (fixed 3 (py a)) ++ rjust 8 (fixed 3 (pz a)) ++
  tx "  0.00  0.00             0".
Proof. unfold print_atom_line, front. rewrite <- !app_assoc. reflexivity. Qed.

Lemma show_length n : (0 <= n < 100000)%Z -> length (show_n n) <= 5.
Proof. intros H. apply (dec_length _ n 4). exact H. Qed.

Lemma front_length i a : (0 <= i < 100000)%Z -> length (plabel a) <= 4 -> length (front i a) = 30.
Proof.
  intros I L. unfold front. rewrite !app_length, !rjust_length by (try apply show_length; auto).
  reflexivity.
Qed.

Theorem pdb_atom_round_trip i a :
  (0 <= i < 100000)%Z -> good_patom a ->
  read_atom_line (print_atom_line i a) = Some (as_read_atom a).
Proof.
  intros I (LL & LT & NX & NY & NZ). unfold read_atom_line. rewrite line_front.
  apply narrow_length in NX, NY, NZ.
  rewrite (rjust_S 7 (fixed 3 (px a))), (rjust_S 7 (fixed 3 (py a))), (rjust_S 7 (fixed 3 (pz a))) by easy.
  set (fx := rjust 7 (fixed 3 (px a))). set (fy := rjust 7 (fixed 3 (py a))).
  set (fz := rjust 7 (fixed 3 (pz a))).
  assert (LX : length fx = 7) by now apply rjust_length.
  assert (LY : length fy = 7) by now apply rjust_length.
  assert (LZ : length fz = 7) by now apply rjust_length.
  assert (LF := front_length i a I LL).
  set (tail := tx " 0.00  0.00             0").
  change (tx "  0.00  0.00             0") with (" "%char :: tail).
  cbn [app].
  assert (SX : slice 31 39 (front i a ++ " "%char :: fx ++ " "%char :: fy ++ " "%char :: fz ++ " "%char :: tail)
               = fx ++ [" "%char]).
  { replace (front i a ++ " "%char :: fx ++ " "%char :: fy ++ " "%char :: fz ++ " "%char :: tail)
      with ((front i a ++ [" "%char]) ++ (fx ++ [" "%char]) ++ (fy ++ " "%char :: fz ++ " "%char :: tail))
      by (rewrite <- !app_assoc; reflexivity).
    apply slice_at; rewrite ?app_length; cbn [length]; lia. }
  assert (SY : slice 39 47 (front i a ++ " "%char :: fx ++ " "%char :: fy ++ " "%char :: fz ++ " "%char :: tail)
               = fy ++ [" "%char]).
  { replace (front i a ++ " "%char :: fx ++ " "%char :: fy ++ " "%char :: fz ++ " "%char :: tail)
      with ((front i a ++ " "%char :: fx ++ [" "%char]) ++ (fy ++ [" "%char]) ++ (fz ++ " "%char :: tail))
      by (rewrite <- !app_assoc; cbn [app]; rewrite <- !app_assoc; reflexivity).
    apply slice_at; rewrite ?app_length; cbn [length]; rewrite ?app_length; cbn [length]; lia. }
  assert (SZ : slice 47 55 (front i a ++ " "%char :: fx ++ " "%char :: fy ++ " "%char :: fz ++ " "%char :: tail)
               = fz ++ [" "%char]).
  { replace (front i a ++ " "%char :: fx ++ " "%char :: fy ++ " "%char :: fz ++ " "%char :: tail)
      with ((front i a ++ " "%char :: fx ++ " "%char :: fy ++ [" "%char]) ++ (fz ++ [" "%char]) ++ tail)
      by (rewrite <- !app_assoc; cbn [app]; rewrite <- !app_assoc; cbn [app]; rewrite <- !app_assoc; reflexivity).
    apply slice_at; rewrite ?app_length; cbn [length]; rewrite ?app_length; cbn [length];
      rewrite ?app_length; cbn [length]; lia. }
  assert (SL : slice 12 16 (front i a ++ " "%char :: fx ++ " "%char :: fy ++ " "%char :: fz ++ " "%char :: tail)
               = rjust 4 (plabel a)).
  { unfold front.
    replace ((tx "ATOM  " ++ rjust 5 (show_n i) ++ tx " " ++ rjust 4 (plabel a) ++ tx "   1     1    ") ++
             " "%char :: fx ++ " "%char :: fy ++ " "%char :: fz ++ " "%char :: tail)
      with ((tx "ATOM  " ++ rjust 5 (show_n i) ++ tx " ") ++ rjust 4 (plabel a) ++
            (tx "   1     1    " ++ " "%char :: fx ++ " "%char :: fy ++ " "%char :: fz ++ " "%char :: tail))
      by (rewrite <- !app_assoc; reflexivity).
    apply slice_at; [|rewrite rjust_length by easy; reflexivity|lia].
    rewrite !app_length, rjust_length by (now apply show_length). reflexivity. }
  rewrite SX, SY, SZ, SL. unfold fx, fy, fz, rjust at 1 2 3. rewrite <- !app_assoc.
  rewrite !read_fixed by (try apply repeat_blank; repeat constructor).
  unfold as_read_atom. f_equal. f_equal.
  unfold rjust. rewrite <- (app_nil_r (plabel a)) at 2.
  rewrite strip_pad; auto using repeat_blank.
Qed.
Print Assumptions pdb_atom_round_trip.

(* The numerals with eight characters are read wrong: the first character
   is dropped, so a coordinate of -100 or below loses its sign, in
   silence. *)
Theorem pdb_sign_lost a i :
  (0 <= i < 100000)%Z -> length (plabel a) <= 4 -> trim blank (plabel a) = true ->
  (-999999 <= px a <= -100000)%Z -> narrow (py a) -> narrow (pz a) ->
  read_atom_line (print_atom_line i a) =
  Some (RAtom (plabel a) ((- px a)%Z, 3) (py a, 3) (pz a, 3)).
Proof.
  intros I LL LT NX NY NZ.
  (* dropping the sign gives the line of the positive coordinate *)
  assert (FX : fixed 3 (px a) = "-"%char :: fixed 3 (- px a)%Z).
  { unfold fixed. destruct (px a <? 0)%Z eqn:S; [|apply Z.ltb_ge in S; lia].
    destruct (- px a <? 0)%Z eqn:S'; [apply Z.ltb_lt in S'; lia|].
    rewrite Z.abs_opp. reflexivity. }
  assert (L7 : length (fixed 3 (- px a)%Z) = 7).
  { rewrite fixed_length. destruct (- px a <? 0)%Z eqn:S'; [apply Z.ltb_lt in S'; lia|].
    replace (Z.abs (- px a)) with (- px a)%Z by lia. change (10 ^ Z.of_nat 3)%Z with 1000%Z.
    assert (B : (100 <= - px a / 1000 < 1000)%Z).
    { split; [apply Z.div_le_lower_bound; lia|apply Z.div_lt_upper_bound; lia]. }
    revert B. generalize (- px a / 1000)%Z. intros n B.
    enough (length (show_n n) = 3) by lia.
    assert (U : length (show_n n) <= 3) by (apply (dec_length _ n 2); change (10 ^ (Z.of_nat 2 + 1))%Z with 1000%Z; lia).
    assert (V : val (show_n n) = n) by (apply val_show; lia).
    assert (NN : numeric (show_n n)) by (apply numeric_dec; lia).
    destruct NN as (ns & E & F). rewrite E in U, V |- *. rewrite map_length in *.
    destruct ns as [|d1 [|d2 [|d3 ns]]]; cbn [length] in *; try lia; exfalso.
    - cbn in V. lia.
    - pose proof (Forall_inv F) as D1. cbv beta in D1. unfold val in V. cbn [map fold_left] in V.
      destruct (digit_cases d1 D1) as (_ & E1 & _). lia.
    - pose proof (Forall_inv F) as D1. pose proof (Forall_inv (Forall_inv_tail F)) as D2. cbv beta in D1, D2.
      unfold val in V. cbn [map fold_left] in V.
      destruct (digit_cases d1 D1) as (_ & E1 & _). destruct (digit_cases d2 D2) as (_ & E2 & _). lia. }
  pose (a' := PAtom (plabel a) (- px a)%Z (py a) (pz a)).
  assert (G : good_patom a').
  { unfold good_patom, a', narrow; cbn. unfold narrow in *. repeat split; auto; lia. }
  transitivity (read_atom_line (print_atom_line i a')); [|exact (pdb_atom_round_trip i a' I G)].
  (* the two lines differ in one character that is never looked at *)
  assert (E1 : exists t, print_atom_line i a = front i a ++ "-"%char :: t /\
                         print_atom_line i a' = front i a ++ " "%char :: t).
  { eexists. split.
    - rewrite line_front, FX. unfold rjust at 1. cbn [length]. rewrite L7. cbn [Nat.sub repeat app]. reflexivity.
    - rewrite line_front. unfold a'. cbn [px py pz plabel].
      unfold rjust at 1. rewrite L7. cbn [Nat.sub repeat app]. reflexivity. }
  destruct E1 as [t [-> ->]]. unfold read_atom_line.
  assert (LF := front_length i a I LL).
  assert (SL : forall c s e, 31 <= s -> slice s e (front i a ++ c :: t) = slice (s - 31) (e - 31) t).
  { intros c s e H. unfold slice. replace (e - 31 - (s - 31))%nat with (e - s)%nat by lia. f_equal.
    rewrite skipn_app, skipn_all2 by lia. rewrite LF. cbn [app].
    destruct (s - 30)%nat as [|m] eqn:E; [lia|]. cbn [skipn]. f_equal. lia. }
  rewrite !(SL _ 31 39), !(SL _ 39 47), !(SL _ 47 55) by lia.
  assert (S12 : forall c, slice 12 16 (front i a ++ c :: t) = slice 12 16 (front i a)).
  { intros c. unfold slice. rewrite skipn_app, firstn_app. rewrite skipn_length, LF.
    replace (16 - 12 - (30 - 12))%nat with 0 by lia. cbn [firstn]. apply app_nil_r. }
  now rewrite !S12.
Qed.
Print Assumptions pdb_sign_lost.

Example pdb_sign_lost_example :
  let a := PAtom (tx "H") (-123456) 1000 0 in
  read_atom_line (print_atom_line 7 a) = Some (RAtom (tx "H") (123456%Z, 3) (1000%Z, 3) (0%Z, 3)).
Proof. vm_compute. reflexivity. Qed.

(* ---------------- whole frames ---------------- *)

Definition good_pframe (f : pframe) : Prop :=
  (let '(a, b, c) := sides f in side_ok a /\ side_ok b /\ side_ok c) /\
  (let '(a, b, c) := angles f in angle_ok a /\ angle_ok b /\ angle_ok c) /\
  Forall good_patom (patoms f) /\ (Z.of_nat (length (patoms f)) < 99999)%Z.

Definition three (k : nat) (t : Z * Z * Z) : num * num * num :=
  let '(a, b, c) := t in ((a, k), (b, k), (c, k)).

Definition as_read (f : pframe) : rframe :=
  RFrame (match title f with [] => None | _ => Some (tx "TITLE   " ++ rjust 70 (title f)) end)
         (three 3 (sides f)) (three 2 (angles f)) (map as_read_atom (patoms f)).

Lemma read_rjust n k z : read_float (rjust n (fixed k z)) = Some (z, k).
Proof.
  unfold rjust. rewrite <- (app_nil_r (fixed k z)) at 2.
  apply read_fixed; [apply repeat_blank|constructor].
Qed.

Lemma read_print_cryst s g :
  (let '(a, b, c) := s in side_ok a /\ side_ok b /\ side_ok c) ->
  (let '(a, b, c) := g in angle_ok a /\ angle_ok b /\ angle_ok c) ->
  read_cryst (print_cryst s g) = Some (three 3 s, three 2 g).
Proof.
  destruct s as [[a b] c]. destruct g as [[al be] ga]. intros (A & B & C) (AL & BE & GA).
  unfold read_cryst, print_cryst.
  assert (LA : length (rjust 9 (fixed 3 a)) = 9) by now apply rjust_length, side_length.
  assert (LB : length (rjust 9 (fixed 3 b)) = 9) by now apply rjust_length, side_length.
  assert (LC : length (rjust 9 (fixed 3 c)) = 9) by now apply rjust_length, side_length.
  assert (L1 : length (rjust 7 (fixed 2 al)) = 7) by now apply rjust_length, angle_length.
  assert (L2 : length (rjust 7 (fixed 2 be)) = 7) by now apply rjust_length, angle_length.
  assert (L3 : length (rjust 7 (fixed 2 ga)) = 7) by now apply rjust_length, angle_length.
  pose proof (read_rjust 9 3 a) as RA. pose proof (read_rjust 9 3 b) as RB.
  pose proof (read_rjust 9 3 c) as RC. pose proof (read_rjust 7 2 al) as R1.
  pose proof (read_rjust 7 2 be) as R2. pose proof (read_rjust 7 2 ga) as R3.
  revert LA LB LC L1 L2 L3 RA RB RC R1 R2 R3.
  generalize (rjust 9 (fixed 3 a)) (rjust 9 (fixed 3 b)) (rjust 9 (fixed 3 c))
             (rjust 7 (fixed 2 al)) (rjust 7 (fixed 2 be)) (rjust 7 (fixed 2 ga)).
  intros ta tb tc t1 t2 t3 LA LB LC L1 L2 L3 RA RB RC R1 R2 R3.
  generalize (tx " P 1        " ++ tx "   1"). intros e.
  assert (LH : length (tx "CRYST1") = 6) by reflexivity. revert LH. generalize (tx "CRYST1"). intros h LH.
  rewrite (slice_at h ta) by (rewrite ?app_length; lia).
  replace (h ++ ta ++ tb ++ tc ++ t1 ++ t2 ++ t3 ++ e)
    with ((h ++ ta) ++ tb ++ (tc ++ t1 ++ t2 ++ t3 ++ e)) by now rewrite <- !app_assoc.
  rewrite (slice_at (h ++ ta) tb) by (rewrite ?app_length; lia).
  replace ((h ++ ta) ++ tb ++ tc ++ t1 ++ t2 ++ t3 ++ e)
    with ((h ++ ta ++ tb) ++ tc ++ (t1 ++ t2 ++ t3 ++ e)) by now rewrite <- !app_assoc.
  rewrite (slice_at (h ++ ta ++ tb) tc) by (rewrite ?app_length; lia).
  replace ((h ++ ta ++ tb) ++ tc ++ t1 ++ t2 ++ t3 ++ e)
    with ((h ++ ta ++ tb ++ tc) ++ t1 ++ (t2 ++ t3 ++ e)) by now rewrite <- !app_assoc.
  rewrite (slice_at (h ++ ta ++ tb ++ tc) t1) by (rewrite ?app_length; lia).
  replace ((h ++ ta ++ tb ++ tc) ++ t1 ++ t2 ++ t3 ++ e)
    with ((h ++ ta ++ tb ++ tc ++ t1) ++ t2 ++ (t3 ++ e)) by now rewrite <- !app_assoc.
  rewrite (slice_at (h ++ ta ++ tb ++ tc ++ t1) t2) by (rewrite ?app_length; lia).
  replace ((h ++ ta ++ tb ++ tc ++ t1) ++ t2 ++ t3 ++ e)
    with ((h ++ ta ++ tb ++ tc ++ t1 ++ t2) ++ t3 ++ e) by now rewrite <- !app_assoc.
  rewrite (slice_at (h ++ ta ++ tb ++ tc ++ t1 ++ t2) t3) by (rewrite ?app_length; lia).
  rewrite RA, RB, RC, R1, R2, R3. reflexivity.
Qed.

(* the cell line is not taken for a title *)
Lemma contains_has p s c : contains p s = true -> has c p = true -> has c s = true.
Proof.
  induction s as [|a s IH]; cbn [contains].
  - destruct (pre p []) eqn:E; [|easy]. apply pre_some in E. destruct p; [|easy]. easy.
  - destruct (pre p (a :: s)) eqn:E.
    + intros _ H. apply pre_some in E. rewrite E, has_app, H. reflexivity.
    + intros H1 H2. cbn [has]. rewrite IH by easy. apply orb_true_r.
Qed.

Lemma has_repeat c n : Ascii.eqb c " " = false -> has c (repeat " "%char n) = false.
Proof. intros H. induction n; cbn [repeat has]; [easy|]. now rewrite H. Qed.

Lemma fixed_no_L k z : has "L" (fixed k z) = false.
Proof.
  assert (P : (0 < 10 ^ Z.of_nat k)%Z) by (apply Z.pow_pos_nonneg; lia).
  unfold fixed. rewrite !has_app.
  destruct (numeric_facts (show_n (Z.abs z / 10 ^ Z.of_nat k))) as (_ & _ & -> & _);
    [apply numeric_dec; apply Z.div_pos; lia|].
  destruct (numeric_facts (digits k (Z.abs z))) as (_ & _ & -> & _); [apply numeric_digits; lia|].
  destruct (z <? 0)%Z; reflexivity.
Qed.

Lemma cryst_no_title s g : contains (tx "TITLE") (print_cryst s g) = false.
Proof.
  destruct (contains (tx "TITLE") (print_cryst s g)) eqn:E; [exfalso|easy].
  apply contains_has with (c := "L"%char) in E; [|reflexivity].
  destruct s as [[a b] c]. destruct g as [[al be] ga]. unfold print_cryst, rjust in E.
  rewrite !has_app, !fixed_no_L, !has_repeat in E by reflexivity. discriminate E.
Qed.

Lemma title_contains t : contains (tx "TITLE") (tx "TITLE   " ++ t) = true.
Proof. reflexivity. Qed.

(* an atom line is not taken for the end of the frame *)
Lemma strip_cons f a l : f a = false -> exists r, strip f (a :: l) = a :: r.
Proof.
  intros H. unfold strip, lstrip. rewrite dropw_head by easy.
  change (a :: l) with ([] ++ a :: l). rewrite rstrip_keep by easy. eexists. reflexivity.
Qed.

Lemma atom_line_not_end i a :
  eqt (strip blank (print_atom_line i a)) [] || eqt (strip blank (print_atom_line i a)) (tx "END") = false.
Proof.
  unfold print_atom_line. change (tx "ATOM  ") with ("A"%char :: tx "TOM  "). cbn [app].
  match goal with |- context [strip blank ("A"%char :: ?l)] => destruct (strip_cons blank "A" l) as [r ->] end.
  - reflexivity.
  - rewrite !eqt_neq; easy.
Qed.

Lemma read_printed_lines l more : forall i, (0 <= i)%Z -> (i + Z.of_nat (length l) < 100000)%Z ->
  Forall good_patom l ->
  read_lines (print_atoms i l ++ tx "END" :: more) = Some (map as_read_atom l, more).
Proof.
  induction l as [|a l IH]; intros i I L F.
  - reflexivity.
  - inversion F; subst. cbn [print_atoms app read_lines].
    rewrite atom_line_not_end, pdb_atom_round_trip; auto.
    2:{ cbn [length] in L. lia. }
    rewrite IH; [reflexivity|lia|cbn [length] in L; lia|easy].
Qed.

Lemma read_body_printed t f more : good_pframe f ->
  read_body t (print_cryst (sides f) (angles f) :: print_atoms 1 (patoms f) ++ tx "END" :: more) =
  PRead (RFrame t (three 3 (sides f)) (three 2 (angles f)) (map as_read_atom (patoms f))) more.
Proof.
  intros (S & A & F & L). unfold read_body. rewrite read_print_cryst by easy.
  rewrite read_printed_lines; [reflexivity|lia|lia|easy].
Qed.

Theorem pdb_frame_round_trip f more :
  good_pframe f -> read_pdb (print_pdb f ++ more) = PRead (as_read f) more.
Proof.
  intros G. unfold print_pdb, read_pdb, as_read. destruct (title f) as [|c t].
  - cbn [app]. rewrite cryst_no_title. rewrite <- app_assoc. cbn [app]. now apply read_body_printed.
  - cbn [app]. rewrite title_contains. rewrite <- app_assoc. cbn [app]. now apply read_body_printed.
Qed.
Print Assumptions pdb_frame_round_trip.

(* C50: a trajectory of any number of frames is read back, to the printed
   precision, as long as the coordinates lie between -99.999 and 999.999,
   the labels have at most four characters and the atoms are fewer than
   99999. *)
Theorem pdb_round_trip_partial fs :
  Forall good_pframe fs ->
  read_all_pdb (concat (map print_pdb fs)) = (map as_read fs, true).
Proof.
  intros F. unfold read_all_pdb.
  assert (H : forall fuel, length fs < fuel ->
    iter_pdb fuel (concat (map print_pdb fs)) = (map as_read fs, true)).
  { induction F as [|f fs G F IH]; intros fuel L; (destruct fuel as [|fuel]; [lia|]).
    - reflexivity.
    - cbn [map concat iter_pdb]. rewrite pdb_frame_round_trip by easy.
      rewrite IH; [reflexivity|cbn in L; lia]. }
  apply H. clear. enough (length fs <= length (concat (map print_pdb fs))) by lia.
  induction fs as [|f fs IH]; [easy|]. cbn [map concat]. rewrite app_length.
  assert (1 <= length (print_pdb f)) by (unfold print_pdb; rewrite app_length; cbn [length]; lia).
  cbn [length]. lia.
Qed.
Print Assumptions pdb_round_trip_partial.

Definition pwater : pframe :=
  PFrame (tx "Step: 1  positions{angstrom}  cell{angstrom}") (10000, 12500, 99999999)%Z (9000, 9000, 12000)%Z
    [PAtom (tx "O") 0 (-99999) 999999; PAtom (tx "H1a") 757 586 (-1)].

Example pwater_good : good_pframe pwater.
Proof.
  unfold good_pframe, pwater, side_ok, angle_ok. cbn.
  repeat split; try lia. repeat constructor; cbn; unfold narrow; try reflexivity; lia.
Qed.

Example pwater_lines :
  nth 1 (print_pdb pwater) [] = tx "CRYST1   10.000   12.50099999.999  90.00  90.00 120.00 P 1           1" /\
  nth 2 (print_pdb pwater) [] = tx "ATOM      1    O   1     1       0.000 -99.999 999.999  0.00  0.00             0".
Proof. vm_compute. auto. Qed.

(* C50 refuted: a coordinate within its eight columns, -100, comes back
   as +100. *)
Theorem pdb_sign_refuted :
  exists a, length (fixed 3 (px a)) <= 8 /\
    read_atom_line (print_atom_line 1 a) = Some (RAtom (plabel a) ((- px a)%Z, 3) (py a, 3) (pz a, 3)) /\
    px a <> 0%Z.
Proof. exists (PAtom (tx "O") (-100000) 0 0). vm_compute. repeat split; [lia|congruence]. Qed.
Print Assumptions pdb_sign_refuted.

(* ... a second coordinate of 1000 loses its first digit, which is added
   to the first coordinate. *)
Theorem pdb_digit_refuted :
  exists a b, length (fixed 3 (py a)) <= 8 /\
    read_atom_line (print_atom_line 1 a) = Some b /\
    rx b = ((10 * px a + 1)%Z, 4) /\ ry b = (0%Z, 3) /\ py a = 1000000%Z.
Proof.
  exists (PAtom (tx "O") 1234 1000000 0). eexists. vm_compute. repeat split. lia.
Qed.
Print Assumptions pdb_digit_refuted.

(* ... and a second coordinate of -100 makes the line unreadable. *)
Theorem pdb_unreadable_refuted :
  exists a, length (fixed 3 (py a)) <= 8 /\ read_atom_line (print_atom_line 1 a) = None.
Proof. exists (PAtom (tx "O") 1234 (-100000) 0). vm_compute. split; [lia|reflexivity]. Qed.
Print Assumptions pdb_unreadable_refuted.
