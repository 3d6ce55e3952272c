(** * The neighbours of the kinetic Monte Carlo are the twelve of the face centred cubic lattice *)
From Coq Require Import List Arith Bool Reals Lra Lia ZArith Psatz Permutation.
From Flocq Require Import Core.
From Verif Require Import RSum PairModel PairProofs CellModel CellProps KmcModel.
Import ListNotations.
Open Scope R_scope.

(** ** What is meant: in units of the primitive vectors *)
Definition fcc12 : list (Z * Z * Z) :=
  [(1, 0, 0); (0, 1, 0); (0, 0, 1); (-1, 0, 0); (0, -1, 0); (0, 0, -1);
   (1, -1, 0); (-1, 1, 0); (1, 0, -1); (-1, 0, 1); (0, 1, -1); (0, -1, 1)]%Z.
Definition comp (v : Z * Z * Z) (k : nat) : Z := match k with 0%nat => fst (fst v) | 1%nat => snd (fst v) | _ => snd v end.
Definition zc (y : params) (s k : nat) : Z := Z.of_nat (coord y s k).
Definition neighbours (y : params) (i j : nat) : Prop :=
  exists v, In v fcc12 /\ forall k, (k < 3)%nat -> exists m, (zc y j k = zc y i k + comp v k + m * Z.of_nat (ncell y))%Z.

(** ** Lengths *)
Definition Q3 (a b c : Z) : Z := (a * a + b * b + c * c + a * b + a * c + b * c)%Z.
Lemma Q3_small a b c : (Q3 a b c <= 1)%Z -> (a, b, c) = (0, 0, 0)%Z \/ In (a, b, c) fcc12.
Proof.
  unfold Q3. intros H.
  assert (S : ((a + b) * (a + b) + (b + c) * (b + c) + (a + c) * (a + c) <= 2)%Z) by lia.
  pose proof (Z.square_nonneg (a + b)) as P1. pose proof (Z.square_nonneg (b + c)) as P2. pose proof (Z.square_nonneg (a + c)) as P3.
  assert (U : (-1 <= a + b <= 1)%Z) by nia. assert (V : (-1 <= b + c <= 1)%Z) by nia. assert (W : (-1 <= a + c <= 1)%Z) by nia.
  clear S P1 P2 P3. assert (A : (-1 <= a <= 1)%Z) by lia. assert (B : (-1 <= b <= 1)%Z) by lia. assert (C : (-1 <= c <= 1)%Z) by lia.
  assert (Ha : (a = -1 \/ a = 0 \/ a = 1)%Z) by lia. assert (Hb : (b = -1 \/ b = 0 \/ b = 1)%Z) by lia. assert (Hc : (c = -1 \/ c = 0 \/ c = 1)%Z) by lia.
  destruct Ha as [->|[-> | ->]]; destruct Hb as [->|[-> | ->]]; destruct Hc as [->|[-> | ->]]; cbn in H; try lia; cbn; auto 20.
Qed.
Lemma Q3_fcc a b c : In (a, b, c) fcc12 -> Q3 a b c = 1%Z.
Proof. intros H. cbn in H. repeat (destruct H as [H|H]; [inversion H; reflexivity|]). destruct H. Qed.
Definition F3 (a0 A B C : R) : R := dot3 (mvec (scell (Params 0 0 0 0 a0 0 0 0 0 0 0 0)) (fun k => match k with 0%nat => A | 1%nat => B | _ => C end))
  (mvec (scell (Params 0 0 0 0 a0 0 0 0 0 0 0 0)) (fun k => match k with 0%nat => A | 1%nat => B | _ => C end)).
Lemma F3_close A B C : let q := A * A + B * B + C * C + A * B + A * C + B * C in Rabs (F3 1 A B C - q / 2) <= 1e-10 * q.
Proof.
  intros q. unfold F3, dot3, mvec, scell. cbn [Rsum rows3 a0]. unfold q.
  pose proof (pow2_ge_0 (A + B)) as H1. pose proof (pow2_ge_0 (A - B)) as H2. pose proof (pow2_ge_0 (A + C)) as H3. pose proof (pow2_ge_0 (A - C)) as H4.
  pose proof (pow2_ge_0 (B + C)) as H5. pose proof (pow2_ge_0 (B - C)) as H6. pose proof (pow2_ge_0 (A + B + C)) as H7.
  pose proof (pow2_ge_0 A) as H8. pose proof (pow2_ge_0 B) as H9. pose proof (pow2_ge_0 C) as H10.
  apply Rabs_le. split; lra.
Qed.
Lemma F3_scale a0 A B C : F3 a0 A B C = a0 ^ 2 * F3 1 A B C.
Proof. unfold F3, dot3, mvec, scell. cbn [Rsum rows3 KmcModel.a0]. ring. Qed.
Lemma F3_near a0 a b c : 0 < a0 -> (F3 a0 (IZR a) (IZR b) (IZR c) < 1.01 * 0.5 * a0 ^ 2 <-> (Q3 a b c <= 1)%Z).
Proof.
  intros P. rewrite F3_scale. pose proof (F3_close (IZR a) (IZR b) (IZR c)) as H. cbv zeta in H.
  set (q := IZR a * IZR a + _ + _ + _ + _ + _) in H. assert (Eq : q = IZR (Q3 a b c)) by (unfold q, Q3; rewrite !plus_IZR, !mult_IZR; reflexivity). rewrite Eq in H.
  clear q Eq. set (F := F3 1 _ _ _) in *. set (q := Q3 a b c) in *. assert (P2 : 0 < a0 ^ 2) by (apply pow_lt; exact P). assert (Q0 : (0 <= q)%Z) by (unfold q, Q3; pose proof (Z.square_nonneg (a + b)); pose proof (Z.square_nonneg (b + c)); pose proof (Z.square_nonneg (a + c)); lia).
  apply IZR_le in Q0. assert (H1 := Rle_trans _ _ _ (Rle_abs _) H). rewrite Rabs_minus_sym in H. assert (H2 := Rle_trans _ _ _ (Rle_abs _) H). split; intros L.
  - apply Z.nlt_ge. intros G. assert (G2 : (2 <= q)%Z) by lia. apply IZR_le in G2. assert (F >= 0.9) by lra. nra.
  - apply IZR_le in L. assert (F <= 0.5 + 1e-10) by lra. nra.
Qed.

(** ** Periodic images *)
Section Lattice.
Variable y : params.
Hypothesis N1 : (1 <= ncell y)%nat.
Hypothesis A0 : 0 < a0 y.
Let n := ncell y.
Lemma n_pos : 0 < INR n.
Proof. apply lt_0_INR. unfold n. lia. Qed.
Lemma dcell_ut : ut_cell (dcell y).
Proof.
  unfold ut_cell, dcell, scell. cbn [rows3]. pose proof n_pos as P. fold n. assert (T : forall x, 0 < x -> a0 y * x * INR n <> 0).
  { intros x X. apply Rgt_not_eq. apply Rmult_lt_0_compat; [apply Rmult_lt_0_compat; assumption|exact P]. }
  repeat split; try ring; apply T; lra.
Qed.
Definition dz (i j k : nat) : Z := (zc y j k - zc y i k)%Z.
Definition wrap (i j k : nat) : Z := (dz i j k - Z.of_nat n * ZnearestE (IZR (dz i j k) / INR n))%Z.
Lemma wrap_small i j k : (2 * Z.abs (wrap i j k) <= Z.of_nat n)%Z.
Proof.
  apply le_IZR. rewrite mult_IZR, abs_IZR, <- INR_IZR_INZ. unfold wrap. rewrite minus_IZR, mult_IZR, <- INR_IZR_INZ. fold (rint (IZR (dz i j k) / INR n)).
  pose proof (rint_half (IZR (dz i j k) / INR n)) as H. pose proof n_pos as P.
  replace (IZR (dz i j k) - INR n * rint (IZR (dz i j k) / INR n)) with (INR n * (IZR (dz i j k) / INR n - rint (IZR (dz i j k) / INR n))) by (field; lra).
  rewrite Rabs_mult, (Rabs_right (INR n)) by lra. nra.
Qed.
Lemma pbc_wrap i j k : (k < 3)%nat -> apply_pbc (dcell y) (fun k => site y j k - site y i k) k = mvec (scell y) (fun k => IZR (wrap i j k)) k.
Proof.
  intros K. unfold apply_pbc. set (ih := invert_ut3x3 (dcell y)). pose proof n_pos as P.
  assert (E : forall c, (c < 3)%nat -> mvec ih (fun k => site y j k - site y i k) c = IZR (dz i j c) / INR n).
  { intros c C. transitivity (mvec ih (mvec (dcell y) (fun k => IZR (dz i j k) / INR n)) c); [|now apply inv_left; [apply dcell_ut|]].
    apply mvec_ext. intros d D. unfold site, mvec. rewrite <- Rsum_minus. apply Rsum_ext. intros l Hl. unfold dcell, dz, zc. fold n. rewrite minus_IZR, <- !INR_IZR_INZ. field. lra. }
  set (f := mvec ih _) in *. unfold mvec. apply Rsum_ext. intros c C. rewrite E by exact C. unfold dcell, wrap. fold n. rewrite minus_IZR, mult_IZR, <- INR_IZR_INZ. unfold rint. field. lra.
Qed.
Lemma near_Q3 i j : near y i j = true <-> (Q3 (wrap i j 0) (wrap i j 1) (wrap i j 2) <= 1)%Z.
Proof.
  unfold near. cbv zeta. rewrite <- (F3_near (a0 y)) by exact A0.
  assert (E : dot3 (apply_pbc (dcell y) (fun k => site y j k - site y i k)) (apply_pbc (dcell y) (fun k => site y j k - site y i k))
              = F3 (a0 y) (IZR (wrap i j 0)) (IZR (wrap i j 1)) (IZR (wrap i j 2))).
  { unfold F3, dot3. apply Rsum_ext. intros k K. rewrite pbc_wrap by exact K. reflexivity. }
  rewrite E. destruct (Rlt_dec _ _); split; intros; try assumption; try reflexivity; try discriminate; contradiction.
Qed.
Lemma wrap_mod i j k : exists m, (zc y j k = zc y i k + wrap i j k + m * Z.of_nat n)%Z.
Proof. exists (ZnearestE (IZR (dz i j k) / INR n)). unfold wrap. set (z := ZnearestE _). unfold dz. ring. Qed.
Lemma coord_lt s k : (s < nsites y)%nat -> (coord y s k < n)%nat.
Proof.
  intros H. unfold nsites in H. unfold coord, n in *. destruct k as [|[|k]]; [|apply Nat.mod_upper_bound; lia..].
  apply Nat.div_lt_upper_bound; nia.
Qed.
Lemma site_coord s : (s < nsites y)%nat -> s = (coord y s 0 * (n * n) + coord y s 1 * n + coord y s 2)%nat.
Proof.
  intros H. unfold coord, n in *. set (N := ncell y) in *. pose proof (Nat.div_mod s N ltac:(lia)) as E1. pose proof (Nat.div_mod (s / N) N ltac:(lia)) as E2.
  rewrite Nat.div_div in E2 by lia. nia.
Qed.
Definition site_of (a b c : nat) : nat := (a * (n * n) + b * n + c)%nat.
Lemma coord_of a b c : (a < n)%nat -> (b < n)%nat -> (c < n)%nat ->
  (site_of a b c < nsites y)%nat /\ coord y (site_of a b c) 0 = a /\ coord y (site_of a b c) 1 = b /\ coord y (site_of a b c) 2 = c.
Proof.
  intros A B C. unfold site_of, nsites, coord. fold n. set (N := n) in *.
  assert (E0 : ((a * (N * N) + b * N + c) / (N * N) = a)%nat) by (symmetry; apply (Nat.div_unique _ _ _ (b * N + c)); nia).
  assert (E1 : ((a * (N * N) + b * N + c) / N = a * N + b)%nat) by (symmetry; apply (Nat.div_unique _ _ _ c); nia).
  assert (E2 : ((a * (N * N) + b * N + c) mod N = c)%nat) by (symmetry; apply (Nat.mod_unique _ _ (a * N + b)); nia).
  assert (E3 : ((a * N + b) mod N = b)%nat) by (symmetry; apply (Nat.mod_unique _ _ a); nia).
  rewrite E0, E1, E2, E3. repeat split. nia.
Qed.
(** ** The loops *)
Definition linked (k j : nat) : bool := negb (Nat.eqb j k) && near y (Nat.max j k) (Nat.min j k).
Definition hits (k : nat) (ps : list (nat * nat)) : list nat :=
  flat_map (fun ij => if near y (fst ij) (snd ij) then (if Nat.eqb (fst ij) k then [snd ij] else []) ++ (if Nat.eqb (snd ij) k then [fst ij] else []) else []) ps.
Lemma hits_app k a b : hits k (a ++ b) = hits k a ++ hits k b.
Proof. unfold hits. apply flat_map_app. Qed.
Lemma pairs_S m : pairs (S m) = pairs m ++ map (fun j => (m, j)) (seq 0 m).
Proof. unfold pairs. rewrite seq_S, flat_map_app. cbn [flat_map]. now rewrite app_nil_r. Qed.
Lemma hits_row k m : hits k (map (fun j => (m, j)) (seq 0 m)) = if Nat.eqb m k then filter (near y m) (seq 0 m) else if (k <? m)%nat && near y m k then [m] else [].
Proof.
  assert (G : forall len s, (s + len <= m)%nat -> hits k (map (fun j => (m, j)) (seq s len)) =
    if Nat.eqb m k then filter (near y m) (seq s len) else if (s <=? k)%nat && (k <? s + len)%nat && near y m k then [m] else []).
  { induction len as [|len IH]; intros s Hs; cbn [seq map hits flat_map filter fst snd].
    - destruct (Nat.eqb m k); [reflexivity|]. destruct (Nat.leb_spec s k), (Nat.ltb_spec k (s + 0)); try lia; reflexivity.
    - fold (hits k (map (fun j => (m, j)) (seq (S s) len))). rewrite IH by lia. destruct (Nat.eqb_spec m k) as [->|Nk].
      + destruct (Nat.eqb_spec s k); [lia|]. destruct (near y k s); reflexivity.
      + destruct (Nat.eqb_spec s k) as [->|Ns].
        * destruct (Nat.leb_spec (S k) k); [lia|]. destruct (Nat.leb_spec k k); [|lia]. destruct (Nat.ltb_spec k (k + S len)); [|lia]. cbn [andb]. destruct (near y m k); reflexivity.
        * replace (S s <=? k)%nat with (s <=? k)%nat by (destruct (Nat.leb_spec s k), (Nat.leb_spec (S s) k); lia || reflexivity).
          replace (k <? S s + len)%nat with (k <? s + S len)%nat by (destruct (Nat.ltb_spec k (s + S len)), (Nat.ltb_spec k (S s + len)); lia || reflexivity).
          destruct (near y m s); reflexivity. }
  rewrite G by lia. cbn [Nat.leb andb Nat.add]. reflexivity.
Qed.
Lemma hits_pairs k m : hits k (pairs m) = if (k <? m)%nat then filter (linked k) (seq 0 m) else [].
Proof.
  induction m as [|m IH]; [reflexivity|]. rewrite pairs_S, hits_app, IH, hits_row.
  destruct (Nat.eqb_spec m k) as [->|Nk].
  - destruct (Nat.ltb_spec k k); [lia|]. destruct (Nat.ltb_spec k (S k)); [|lia]. rewrite seq_S, filter_app. cbn [filter app Nat.add].
    assert (L : linked k k = false) by (unfold linked; now rewrite Nat.eqb_refl). rewrite L, app_nil_r.
    apply filter_ext_in. intros j Hj. apply in_seq in Hj. unfold linked. destruct (Nat.eqb_spec j k); [lia|]. rewrite Nat.max_r, Nat.min_l by lia. reflexivity.
  - destruct (Nat.ltb_spec k m) as [L|L].
    + destruct (Nat.ltb_spec k (S m)); [|lia]. rewrite seq_S, filter_app. cbn [filter app andb Nat.add]. f_equal.
      unfold linked. destruct (Nat.eqb_spec m k); [contradiction|]. rewrite Nat.max_l, Nat.min_r by lia. reflexivity.
    + destruct (Nat.ltb_spec k (S m)); [lia|]. reflexivity.
Qed.
Lemma fold_connect ps : forall l, (forall k, (length (l k ++ hits k ps) <= 12)%nat) -> (forall i j, In (i, j) ps -> i <> j) ->
  exists l', fold_left (connect y) ps (Some l) = Some l' /\ forall k, l' k = l k ++ hits k ps.
Proof.
  induction ps as [|[i j] ps IH]; intros l B D; cbn [fold_left].
  - exists l. split; [reflexivity|]. intros k. cbn. now rewrite app_nil_r.
  - assert (Dij : i <> j) by (apply D; now left). cbn [hits flat_map fst snd] in B. fold (hits) in B.
    unfold connect at 2. destruct (near y i j) eqn:E.
    + assert (Bi := B i). assert (Bj := B j). rewrite !app_length in Bi, Bj. rewrite !Nat.eqb_refl in *. cbn [length] in Bi, Bj.
      unfold put. destruct (Nat.ltb_spec (length (l i)) 12); [|lia]. unfold upd at 1. destruct (Nat.eqb_spec j i); [congruence|]. destruct (Nat.ltb_spec (length (l j)) 12); [|lia].
      destruct (IH (upd (upd l i (l i ++ [j])) j (upd l i (l i ++ [j]) j ++ [i]))) as (l' & F & L).
      * intros k. specialize (B k). rewrite !app_length in B. rewrite app_length. unfold upd. destruct (Nat.eqb_spec k j) as [->|Nj].
        -- destruct (Nat.eqb_spec j i); [congruence|]. rewrite app_length. rewrite Nat.eqb_refl in B. cbn [length] in B |- *. unfold hits. lia.
        -- destruct (Nat.eqb_spec k i) as [->|Ni]; [rewrite app_length; rewrite Nat.eqb_refl in B; cbn [length] in B |- *; unfold hits; lia|]. unfold hits. lia.
      * intros a b I. apply D. now right.
      * exists l'. split; [exact F|]. intros k. rewrite L. cbn [hits flat_map fst snd]. fold (hits k ps). rewrite E. unfold upd.
        destruct (Nat.eqb_spec k j) as [->|Nj].
        -- destruct (Nat.eqb_spec j i); [congruence|]. destruct (Nat.eqb_spec i j); [congruence|]. rewrite Nat.eqb_refl. cbn [app]. now rewrite <- app_assoc.
        -- destruct (Nat.eqb_spec j k); [congruence|]. destruct (Nat.eqb_spec k i) as [->|Ni].
           ++ rewrite Nat.eqb_refl. cbn [app]. now rewrite <- app_assoc.
           ++ destruct (Nat.eqb_spec i k); [congruence|]. reflexivity.
    + destruct (IH l) as (l' & F & L); [exact B|intros a b I; apply D; now right|].
      exists l'. split; [exact F|]. intros k. rewrite L. cbn [hits flat_map fst snd]. rewrite E. reflexivity.
Qed.
Lemma pairs_distinct m i j : In (i, j) (pairs m) -> i <> j.
Proof.
  unfold pairs. rewrite in_flat_map. intros (a & A & H). apply in_map_iff in H. destruct H as (b & E & B). injection E as <- <-. apply in_seq in B. lia.
Qed.
Hypothesis N3 : (3 <= ncell y)%nat.
(** [near] decides whether two different sites are neighbours. *)
Theorem near_neighbours i j : (i < nsites y)%nat -> (j < nsites y)%nat -> i <> j -> (near y i j = true <-> neighbours y i j).
Proof.
  intros Hi Hj D. rewrite near_Q3. split.
  - intros Q. destruct (Q3_small _ _ _ Q) as [Z|Z].
    + exfalso. apply D. injection Z as Z0 Z1 Z2.
      assert (E : forall k, (k < 3)%nat -> coord y i k = coord y j k).
      { intros k K. assert (W : wrap i j k = 0%Z) by (destruct k as [|[|[|k]]]; [assumption..|lia]).
        destruct (wrap_mod i j k) as [m M]. rewrite W in M. unfold zc in M. pose proof (coord_lt i k Hi). pose proof (coord_lt j k Hj). assert (m = 0%Z) by nia. subst m. lia. }
      rewrite (site_coord i Hi), (site_coord j Hj), !E by lia. reflexivity.
    + exists (wrap i j 0, wrap i j 1, wrap i j 2). split; [exact Z|]. intros k K. destruct (wrap_mod i j k) as [m M]. exists m. fold n.
      rewrite M. destruct k as [|[|[|k]]]; [reflexivity..|lia].
  - intros (v & V & M).
    assert (B : forall k, (-1 <= comp v k <= 1)%Z).
    { intros k. cbn in V. repeat (destruct V as [V|V]; [subst v; destruct k as [|[|k]]; cbn; lia|]). destruct V. }
    assert (W : forall k, (k < 3)%nat -> wrap i j k = comp v k).
    { intros k K. destruct (M k K) as [a Ea]. destruct (wrap_mod i j k) as [b Eb]. pose proof (wrap_small i j k) as S. specialize (B k). fold n in Ea.
      assert (X : (wrap i j k - comp v k = (a - b) * Z.of_nat n)%Z) by lia. assert (N : (3 <= Z.of_nat n)%Z) by (unfold n; lia).
      assert (Y : (a - b = 0)%Z) by nia. rewrite Y in X. lia. }
    rewrite !W by lia. destruct v as [[a b] c]. cbn [comp fst snd]. rewrite (Q3_fcc a b c V). lia.
Qed.
Lemma neighbours_sym i j : neighbours y i j -> neighbours y j i.
Proof.
  intros ([[a b] c] & V & M). exists (- a, - b, - c)%Z. split.
  - cbn in V |- *. repeat (destruct V as [V|V]; [inversion V; subst; cbn; auto 20|]). destruct V.
  - intros k K. destruct (M k K) as [m E]. exists (- m)%Z. rewrite E. destruct k as [|[|k]]; cbn [comp fst snd]; ring.
Qed.
Lemma neighbours_irrefl i : ~ neighbours y i i.
Proof.
  intros (v & V & M). assert (H : forall k, (k < 3)%nat -> comp v k = 0%Z).
  { intros k K. destruct (M k K) as [m E]. assert (B : (-1 <= comp v k <= 1)%Z).
    { cbn in V. repeat (destruct V as [V|V]; [subst v; destruct k as [|[|k]]; cbn; lia|]). destruct V. }
    fold n in E. assert (N : (3 <= Z.of_nat n)%Z) by (unfold n; lia). assert (m = 0%Z) by nia. subst m. lia. }
  destruct v as [[a b] c]. pose proof (H 0%nat ltac:(lia)) as Ha. pose proof (H 1%nat ltac:(lia)) as Hb. pose proof (H 2%nat ltac:(lia)) as Hc. cbn in Ha, Hb, Hc. subst.
  apply Q3_fcc in V. discriminate.
Qed.
Definition shifted (i : nat) (v : Z * Z * Z) : nat :=
  let c := fun k => Z.to_nat ((zc y i k + comp v k) mod Z.of_nat n) in site_of (c 0%nat) (c 1%nat) (c 2%nat).
Lemma shifted_spec i v : (shifted i v < nsites y)%nat /\ forall k, (k < 3)%nat -> zc y (shifted i v) k = ((zc y i k + comp v k) mod Z.of_nat n)%Z.
Proof.
  unfold shifted. assert (N : (0 < Z.of_nat n)%Z) by (unfold n; lia).
  assert (L : forall k, (Z.to_nat ((zc y i k + comp v k) mod Z.of_nat n) < n)%nat).
  { intros k. pose proof (Z.mod_pos_bound (zc y i k + comp v k) _ N). lia. }
  destruct (coord_of _ _ _ (L 0%nat) (L 1%nat) (L 2%nat)) as (B & E0 & E1 & E2). split; [exact B|].
  intros k K. unfold zc at 1. assert (P : forall x, (0 <= x mod Z.of_nat n)%Z) by (intros x; apply (Z.mod_pos_bound x _ N)).
  destruct k as [|[|[|k]]]; [rewrite E0|rewrite E1|rewrite E2|lia]; apply Z2Nat.id, P.
Qed.
Lemma neighbours_shifted i j : (j < nsites y)%nat -> (neighbours y i j <-> In j (map (shifted i) fcc12)).
Proof.
  intros Hj. assert (N : (0 < Z.of_nat n)%Z) by (unfold n; lia). rewrite in_map_iff. split.
  - intros (v & V & M). exists v. split; [|exact V]. destruct (shifted_spec i v) as [B S].
    rewrite (site_coord _ B), (site_coord _ Hj).
    assert (E : forall k, (k < 3)%nat -> coord y (shifted i v) k = coord y j k).
    { intros k K. specialize (S k K). destruct (M k K) as [m E]. fold n in E. apply Nat2Z.inj. fold (zc y (shifted i v) k). fold (zc y j k). rewrite S.
      pose proof (coord_lt j k Hj) as C. unfold zc in E at 1. symmetry. apply (Z.mod_unique_pos _ _ (- m)); [unfold zc; lia|]. unfold zc at 2. rewrite E. ring. }
    rewrite !E by lia. reflexivity.
  - intros (v & <- & V). exists v. split; [exact V|]. intros k K. destruct (shifted_spec i v) as [_ S]. rewrite S by exact K. fold n.
    exists (- ((zc y i k + comp v k) / Z.of_nat n))%Z. pose proof (Z.div_mod (zc y i k + comp v k) (Z.of_nat n) ltac:(lia)). lia.
Qed.
Lemma shifted_inj i v w : In v fcc12 -> In w fcc12 -> shifted i v = shifted i w -> v = w.
Proof.
  intros V W E. assert (N : (3 <= Z.of_nat n)%Z) by (unfold n; lia).
  assert (B : forall v, In v fcc12 -> forall k, (-1 <= comp v k <= 1)%Z).
  { intros u U k. cbn in U. repeat (destruct U as [U|U]; [subst u; destruct k as [|[|k]]; cbn; lia|]). destruct U. }
  assert (C : forall k, (k < 3)%nat -> comp v k = comp w k).
  { intros k K. destruct (shifted_spec i v) as [_ Sv]. destruct (shifted_spec i w) as [_ Sw]. specialize (Sv k K). specialize (Sw k K). rewrite E, Sw in Sv.
    specialize (B v V k) as Bv. specialize (B w W k) as Bw. pose proof (Z.div_mod (zc y i k + comp v k) (Z.of_nat n) ltac:(lia)) as D1. pose proof (Z.div_mod (zc y i k + comp w k) (Z.of_nat n) ltac:(lia)) as D2.
    rewrite Sv in D2. set (a := ((zc y i k + comp v k) / Z.of_nat n)%Z) in *. set (b := ((zc y i k + comp w k) / Z.of_nat n)%Z) in *. assert (a = b) by nia. nia. }
  destruct v as [[a b] c], w as [[a' b'] c']. pose proof (C 0%nat ltac:(lia)). pose proof (C 1%nat ltac:(lia)). pose proof (C 2%nat ltac:(lia)). cbn in *. congruence.
Qed.

Lemma linked_neighbours k j : (k < nsites y)%nat -> (j < nsites y)%nat -> (linked k j = true <-> neighbours y k j).
Proof.
  intros Hk Hj. unfold linked. destruct (Nat.eqb_spec j k) as [->|D]; cbn [negb andb].
  - split; [discriminate|]. intros H. destruct (neighbours_irrefl k H).
  - destruct (Nat.lt_ge_cases j k) as [L|L].
    + rewrite Nat.max_r, Nat.min_l by lia. apply near_neighbours; [assumption..|congruence].
    + rewrite Nat.max_l, Nat.min_r by lia. rewrite near_neighbours by (assumption || congruence). split; apply neighbours_sym.
Qed.
Lemma neighbour_list k : (k < nsites y)%nat -> length (filter (linked k) (seq 0 (nsites y))) = 12%nat.
Proof.
  intros Hk. transitivity (length (map (shifted k) fcc12)); [|reflexivity]. apply Permutation_length. apply NoDup_Permutation.
  - apply NoDup_filter, seq_NoDup.
  - assert (I : forall l, NoDup l -> incl l fcc12 -> NoDup (map (shifted k) l)).
    { induction l as [|v l IH]; intros ND Inc; cbn [map]; constructor.
      - rewrite in_map_iff. intros (w & E & W). inversion ND; subst. apply shifted_inj in E; [subst; contradiction|apply Inc; now right|apply Inc; now left].
      - inversion ND; subst. apply IH; [assumption|]. intros x X. apply Inc. now right. }
    apply I; [|intros x X; exact X]. repeat constructor; cbn; intuition discriminate.
  - intros j. rewrite filter_In, in_seq. split.
    + intros [[_ B] L]. apply neighbours_shifted; [lia|]. apply linked_neighbours; [assumption|lia|exact L].
    + intros I. assert (B : (j < nsites y)%nat) by (apply in_map_iff in I; destruct I as (v & <- & _); apply shifted_spec).
      split; [lia|]. apply linked_neighbours; [assumption..|]. apply neighbours_shifted; assumption.
Qed.
End Lattice.
(** With at least three cells in each direction the table is complete: no row is too long, none needs
    padding, nothing twice, and the entries are the neighbours on the lattice. *)
Theorem connectivity_fcc y : (3 <= ncell y)%nat -> 0 < a0 y -> exists l, connectivity y = Some l /\
  forall k, (k < nsites y)%nat -> padded (l k) = l k /\ length (l k) = 12%nat /\ NoDup (l k) /\ forall j, In j (l k) <-> (j < nsites y)%nat /\ neighbours y k j.
Proof.
  intros N3 A0. assert (N1 : (1 <= ncell y)%nat) by lia.
  destruct (fold_connect y N1 (pairs (nsites y)) (fun _ => [])) as (l & F & L).
  - intros k. cbn [app]. rewrite (hits_pairs y N1). destruct (Nat.ltb_spec k (nsites y)); [rewrite (neighbour_list y N1 A0 N3) by assumption; lia|cbn; lia].
  - apply (pairs_distinct y N1).
  - exists l. split; [exact F|]. intros k K. assert (E : l k = filter (linked y k) (seq 0 (nsites y))).
    { rewrite L. cbn [app]. rewrite (hits_pairs y N1). destruct (Nat.ltb_spec k (nsites y)); [reflexivity|lia]. }
    assert (Len : length (l k) = 12%nat) by (rewrite E; now apply (neighbour_list y N1 A0 N3)).
    repeat split.
    + unfold padded. rewrite Len. cbn. now rewrite app_nil_r.
    + exact Len.
    + rewrite E. apply NoDup_filter, seq_NoDup.
    + rewrite E in H. apply filter_In in H. destruct H as [H _]. apply in_seq in H. lia.
    + rewrite E in H. apply filter_In in H. destruct H as [H G]. apply in_seq in H. apply (linked_neighbours y N1 A0 N3) in G; [exact G|assumption|lia].
    + intros [B G]. rewrite E. apply filter_In. split; [apply in_seq; lia|]. now apply (linked_neighbours y N1 A0 N3).
Qed.

Definition small (n : nat) : params := Params n 1 0 0 1 1 1 1 0 0 0 0.
Example connectivity_case : exists l, connectivity (small 5) = Some l /\ length (l 7%nat) = 12%nat.
Proof. destruct (connectivity_fcc (small 5)) as (l & C & H); [cbn; lia|cbn; lra|]. exists l. split; [exact C|]. apply H. cbn. lia. Qed.
(** The rows of the table have twelve entries. *)
Theorem padded_length l : (length l <= 12)%nat -> length (padded l) = 12%nat /\ firstn (length l) (padded l) = l.
Proof.
  intros H. unfold padded. split; [rewrite app_length, repeat_length; lia|]. rewrite firstn_app, Nat.sub_diag, firstn_all. cbn. apply app_nil_r.
Qed.
(** With two cells in each direction the rows are filled up with zeros: a vacancy in the farthest
    corner can go to site 0, which is no neighbour of it, and not back. *)
Theorem two_cells_refuted : exists l, connectivity (small 2) = Some l /\
  In 0%nat (padded (l 7%nat)) /\ ~ In 7%nat (padded (l 0%nat)) /\ ~ neighbours (small 2) 7 0.
Proof.
  set (y := small 2). assert (N1 : (1 <= ncell y)%nat) by (cbn; lia). assert (A0 : 0 < a0 y) by (cbn; lra).
  assert (W : forall i j k, (i < 8)%nat -> (j < 8)%nat -> (k < 3)%nat -> wrap y i j k = dz y i j k).
  { intros i j k Hi Hj K. unfold wrap. pose proof (coord_lt y N1 i k Hi) as Ci. pose proof (coord_lt y N1 j k Hj) as Cj. cbn [ncell y small] in Ci, Cj.
    assert (E : rint (IZR (dz y i j k) / INR (ncell y)) = 0).
    { apply rint_half_tie. assert (D : (-1 <= dz y i j k <= 1)%Z) by (unfold dz, zc; lia). destruct D as [D1 D2]. apply IZR_le in D1. apply IZR_le in D2. cbn [ncell y small INR]. apply Rabs_le. lra. }
    unfold rint in E. apply eq_IZR in E. rewrite E. lia. }
  assert (NR : forall i j, (i < 8)%nat -> (j < 8)%nat -> near y i j = (Q3 (dz y i j 0) (dz y i j 1) (dz y i j 2) <=? 1)%Z).
  { intros i j Hi Hj. pose proof (near_Q3 y N1 A0 i j) as H. rewrite !W in H by (assumption || lia). rewrite <- Z.leb_le in H. destruct (near y i j), (Q3 _ _ _ <=? 1)%Z; try reflexivity; destruct H as [H1 H2]; [rewrite H1|rewrite H2]; reflexivity. }
  assert (L : forall k, (k < 8)%nat -> filter (linked y k) (seq 0 8) = filter (fun j => negb (Nat.eqb j k) && (Q3 (dz y (Nat.max j k) (Nat.min j k) 0) (dz y (Nat.max j k) (Nat.min j k) 1) (dz y (Nat.max j k) (Nat.min j k) 2) <=? 1)%Z) (seq 0 8)).
  { intros k K. apply filter_ext_in. intros j J. apply in_seq in J. unfold linked. rewrite NR by lia. reflexivity. }
  destruct (fold_connect y N1 (pairs 8) (fun _ => [])) as (l & F & H).
  - intros k. cbn [app]. rewrite (hits_pairs y N1). destruct (k <? 8)%nat; [|cbn; lia].
    assert (G : forall p (s : list nat), (length (filter p s) <= length s)%nat) by (intros p s; induction s as [|x s IH]; cbn; [lia|destruct (p x); cbn; lia]).
    specialize (G (linked y k) (seq 0 8)). rewrite seq_length in G. lia.
  - apply (pairs_distinct y N1).
  - exists l. split; [exact F|]. rewrite (H 7%nat), (H 0%nat), !(hits_pairs y N1). cbn [Nat.ltb Nat.leb app]. rewrite !L by lia. repeat split.
    + vm_compute. auto 20.
    + vm_compute. intuition discriminate.
    + intros (v & V & M). cbn [ncell y small] in M. destruct (M 0%nat ltac:(lia)) as [a Ea]. destruct (M 1%nat ltac:(lia)) as [b Eb]. destruct (M 2%nat ltac:(lia)) as [c Ec].
      change (zc y 0 0) with 0%Z in Ea. change (zc y 7 0) with 1%Z in Ea. change (zc y 0 1) with 0%Z in Eb. change (zc y 7 1) with 1%Z in Eb. change (zc y 0 2) with 0%Z in Ec. change (zc y 7 2) with 1%Z in Ec.
      change (Z.of_nat 2) with 2%Z in *. unfold comp in Ea, Eb, Ec. destruct v as [[x1 x2] x3]. cbn [fst snd] in Ea, Eb, Ec. unfold fcc12 in V. cbn [In] in V.
      repeat match type of V with _ \/ _ => destruct V as [V|V]; [injection V as <- <- <-; lia|] end. destruct V.
Qed.
