(** * Theorems of record about fixed cell entries, the volume constraint and the cell propagator
    (C124-C126) *)
From Coq Require Import Ascii String List Arith Lia Reals Lra FunctionalExtensionality Bool.
From Verif Require Import RSum CellModel BaroModel BaroIso BaroRate BaroCons BaroCell BaroProps.
From Verif Require ConstrJac MTSModel MTSSched.
Import ListNotations.
Open Scope R_scope.

(** ** Names of cell entries *)
(** A name is two letters out of x, y and z, in any order, for an entry of the upper triangle;
    "offdiagonal" names the three entries off the diagonal. *)
Definition letter (i : nat) : ascii := match i with 0%nat => "x"%char | 1%nat => "y"%char | _ => "z"%char end.
Definition names (f : string) (i j : nat) : Prop :=
  (f = "offdiagonal"%string /\ i <> j) \/ f = String (letter i) (String (letter j) "") \/ f = String (letter j) (String (letter i) "").
Lemma entries_spec f : match entries f with
  | Some l => forall i j, (i <= j)%nat -> (j < 3)%nat -> (In (i, j) l <-> names f i j)
  | None => forall i j, (i <= j)%nat -> (j < 3)%nat -> ~ names f i j
  end.
Proof.
  unfold entries.
  repeat match goal with |- context [String.eqb f ?s] => destruct (String.eqb_spec f s) as [->|?];
    [intros i j Hi Hj; destruct j as [|[|[|j]]]; [..|lia]; destruct i as [|[|[|i]]]; try lia; unfold names; cbn;
     (split; [intros H; repeat (destruct H as [H|H]; try discriminate H); try contradiction; auto; try (left; split; [reflexivity|lia])
             |intros [[H N]|[H|H]]; try discriminate H; auto 10; exfalso; apply N; reflexivity])|] end.
  intros i j Hi Hj. destruct j as [|[|[|j]]]; [..|lia]; destruct i as [|[|[|i]]]; try lia; unfold names; cbn; intros [[H N]|[H|H]]; subst; try contradiction; lia.
Qed.
Lemma set0_in l : forall A i j, fold_left set0 l A i j = if existsb (fun e => Nat.eqb i (fst e) && Nat.eqb j (snd e)) l then 0 else A i j.
Proof.
  induction l as [|e l IH]; intros A i j; [reflexivity|]. cbn [fold_left existsb]. rewrite IH. unfold set0.
  destruct (Nat.eqb i (fst e) && Nat.eqb j (snd e))%bool; cbn; [|reflexivity]. now destruct (existsb _ l).
Qed.
Lemma existsb_in l i j : existsb (fun e : nat * nat => Nat.eqb i (fst e) && Nat.eqb j (snd e)) l = true <-> In (i, j) l.
Proof.
  rewrite existsb_exists. split.
  - intros ([a b] & Hin & H). cbn in H. apply andb_prop in H as [H1 H2]. apply Nat.eqb_eq in H1, H2. now subst.
  - intros H. exists (i, j). split; [exact H|]. cbn. now rewrite !Nat.eqb_refl.
Qed.
Lemma names_dec f i j : names f i j \/ ~ names f i j.
Proof.
  unfold names. destruct (string_dec f "offdiagonal"), (Nat.eq_dec i j), (string_dec f (String (letter i) (String (letter j) ""))), (string_dec f (String (letter j) (String (letter i) ""))); tauto.
Qed.
Lemma classic_names r i j : (exists f, In f r /\ names f i j) \/ ~ (exists f, In f r /\ names f i j).
Proof.
  induction r as [|f r IH]; [right; intros (f & [] & _)|]. destruct (names_dec f i j) as [Y|N]; [left; exists f; split; [now left|exact Y]|].
  destruct IH as [(g & Hg & Y)|Ng]; [left; exists g; split; [now right|exact Y]|]. right. intros (g & [<-|Hg] & Y); [contradiction|]. apply Ng. now exists g.
Qed.
Lemma mask_loop_spec fix_ : forall A M, mask_loop fix_ A = Some M -> forall i j, (i <= j)%nat -> (j < 3)%nat ->
  ((exists f, In f fix_ /\ names f i j) -> M i j = 0) /\ (~ (exists f, In f fix_ /\ names f i j) -> M i j = A i j).
Proof.
  induction fix_ as [|f r IH]; intros A M H i j Hi Hj.
  - injection H as <-. split; [intros (f & [] & _)|reflexivity].
  - cbn [mask_loop] in H. pose proof (entries_spec f) as Sp. destruct (entries f) as [l|] eqn:E; [|discriminate].
    specialize (Sp i j Hi Hj). destruct (IH _ _ H i j Hi Hj) as [I1 I2]. pose proof (set0_in l A i j) as S0.
    destruct (existsb (fun e => Nat.eqb i (fst e) && Nat.eqb j (snd e)) l) eqn:Ex.
    + assert (Nm : names f i j) by (apply Sp, existsb_in, Ex).
      assert (M0 : M i j = 0).
      { destruct (classic_names r i j) as [Y|N]; [now apply I1|rewrite (I2 N); exact S0]. }
      split; [intros _; exact M0|]. intros N. exfalso. apply N. exists f. split; [now left|exact Nm].
    + assert (Nm : ~ names f i j) by (intros X; apply Sp in X; apply existsb_in in X; congruence).
      split.
      * intros (g & [<-|Hg] & Hn); [contradiction|]. apply I1. now exists g.
      * intros N. rewrite I2, S0; [reflexivity|]. intros (g & Hg & Hn). apply N. exists g. split; [now right|exact Hn].
Qed.

(** The mask is zero at the named entries of the upper triangle, and one at the others; an unknown
    name is an error. *)
Theorem mask_exact fix_ M : mask_from_fix fix_ = Some M -> forall i j, (i <= j)%nat -> (j < 3)%nat ->
  ((exists f, In f fix_ /\ names f i j) -> M i j = 0) /\ (~ (exists f, In f fix_ /\ names f i j) -> M i j = 1).
Proof. intros H. exact (mask_loop_spec fix_ _ M H). Qed.
Theorem mask_errors fix_ : mask_from_fix fix_ = None <-> exists f, In f fix_ /\ forall i j, (i <= j)%nat -> (j < 3)%nat -> ~ names f i j.
Proof.
  unfold mask_from_fix. generalize (fun _ _ : nat => 1). induction fix_ as [|f r IH]; intros A; cbn [mask_loop].
  - split; [discriminate|intros (f & [] & _)].
  - pose proof (entries_spec f) as Sp. destruct (entries f) as [l|] eqn:E.
    + rewrite IH. split; [intros (g & Hg & Y); exists g; split; [now right|exact Y]|].
      intros (g & [<-|Hg] & Y); [|now exists g]. exfalso.
      assert (Hl : exists i j, (i <= j)%nat /\ (j < 3)%nat /\ In (i, j) l).
      { revert E. clear. unfold entries.
        repeat match goal with |- context [String.eqb f ?s] => destruct (String.eqb f s); [intros E; injection E as <-; do 2 eexists; split; [|split; [|now left]]; lia|] end. discriminate. }
      destruct Hl as (i & j & Hi & Hj & Hin). apply (Y i j Hi Hj). now apply Sp.
    + split; [intros _; exists f; split; [now left|exact Sp]|reflexivity].
Qed.
Example mask_case : exists M, mask_from_fix ["yx"; "zz"]%string = Some M /\ M 0%nat 1%nat = 0 /\ M 2%nat 2%nat = 0 /\ M 0%nat 0%nat = 1
  /\ mask_from_fix ["xw"]%string = None.
Proof. eexists. repeat split; reflexivity. Qed.

(** ** What the momentum step leaves *)
Definition masked (hmask p : mat3) : Prop := forall i j, (i < 3)%nat -> (j < 3)%nat -> hmask i j = 0 -> p i j = 0.
(** Masked momenta are zero (with the volume constraint too, as long as no diagonal entry is fixed); with the
    constraint the trace is zero; and kinetic energy plus heat is as without mask and constraint. *)
Theorem masked_after_pstep y pi hmask volc l dt s p e : (volc = true -> forall i, (i < 3)%nat -> hmask i i <> 0) ->
  let x := cell_pstep y pi hmask volc l dt s (p, e) in
  masked hmask (fst x) /\ (volc = true -> trace (fst x) = 0) /\ snd x + kin33 y (fst x) = e + kin33 y (raw_pstep y pi hmask l dt s p).
Proof.
  intros H. unfold cell_pstep. cbn [fst snd]. split; [|split].
  - intros i j Hi Hj M0. unfold constrain. destruct volc; [|rewrite M0; ring]. unfold eye3. destruct (Nat.eqb_spec i j) as [->|N]; [|rewrite M0; unfold Rdiv; ring].
    exfalso. now apply (H eq_refl j Hj).
  - intros ->. unfold constrain, trace, eye3. cbn [Nat.eqb]. field.
  - ring.
Qed.
(** A traceless velocity keeps the volume, to first order. *)
Theorem volume_rate y v s x : drifts y v s x -> upper (hh s) -> upper v -> derivable_pt_lim (fun t => vol (x t)) 0 (vol s * trace v).
Proof.
  intros D U V. destruct (drift_h y v s x D U V) as [Z Dh]. unfold vol, det_ut3x3. eapply derivable_eq; cycle 1.
  - apply d_mult; [apply d_mult|]; apply Dh; lia.
  - cbn beta. rewrite !Z by lia. unfold trace. ring.
Qed.
(** The input documentation: hfix lists the entries of the cell that are held fixed. They are not: a fixed entry
    of the velocity leaves the entry of the cell scaled with the others in its row. *)
Theorem hfix_moves_cell_refuted : exists y eig inv s p hmask, mask_from_fix ["xy"%string] = Some hmask /\ masked hmask p /\ upper p /\
  eig_ok eig inv (vel y p) /\ exists d, d <> 0 /\ derivable_pt_lim (fun t => hh (cell_qcstep y eig inv t s p) 0%nat 1%nat) 0 d.
Proof.
  exists (y_gas 1), (eigU U_id U_id), (fun _ => U_id), (Atm (fun _ => 0) (fun _ => 1) (fun _ _ => 0) (fun _ _ => 0) (rows3 1 1 0 0 1 0 0 0 1)), U_id.
  eexists. split; [reflexivity|]. split; [|split; [repeat split; reflexivity|split; [unfold eig_ok, eigU, prod3, eye3; idx|]]].
  - intros i j Hi Hj M0. destruct i as [|[|[|i]]]; [..|lia]; destruct j as [|[|[|j]]]; try lia; try reflexivity; exfalso; revert M0; cbn; lra.
  - exists 1. split; [lra|].
    assert (G := germ_exp (vel (y_gas 1) U_id)). unfold cell_qcstep. cbn [hh].
    change (fun t => prod3 (matrix_exp 3 20 10 (scal3 t (fun i j => U_id i j / wmass (y_gas 1)))) (rows3 1 1 0 0 1 0 0 0 1) 0%nat 1%nat)
      with (fun t => prod3 (matrix_exp 3 20 10 (scal3 t (vel (y_gas 1) U_id))) (rows3 1 1 0 0 1 0 0 0 1) 0%nat 1%nat).
    unfold prod3. eapply derivable_eq; cycle 1.
    + apply (derivable_Rsum 3 _ (fun k => vel (y_gas 1) U_id 0%nat k * rows3 1 1 0 0 1 0 0 0 1 k 1%nat)). intros k Hk.
      eapply derivable_eq; [|apply d_mult; [apply (G 0%nat k ltac:(lia) Hk)|apply d_const]]. cbn beta. ring.
    + unfold vel, U_id. cbn. field.
Qed.

(** ** The propagator of the cell when the velocity has no diagonal *)
(** The factor of the time step is missing: a step of no time at all moves the atoms by p / m. *)
Theorem zero_time_jump y eig inv s p a i : (i < 3)%nat -> diag0 (vel y p) = true ->
  qc (cell_qcstep y eig inv 0 s p) (3 * a + i)%nat = qc s (3 * a + i)%nat + pc s (3 * a + i)%nat / m y a.
Proof.
  intros Hi D0. change (qc (cell_qcstep y eig inv 0 s p) (3 * a + i)%nat) with
    (rowmul (matrix_exp 3 20 10 (scal3 0 (vel y p))) (qc s) (3 * a + i)%nat + rowmul (sinh_of eig inv (vel y p) 0) (fun k => pc s k / m3 y k) (3 * a + i)%nat).
  rewrite !rowmul_at by assumption. pose proof (germ_exp (vel y p)) as Ge.
  rewrite (Rsum_ext 3 (fun k => matrix_exp 3 20 10 (scal3 0 (vel y p)) i k * qc s (3 * a + k)%nat) (fun k => one3 i k * qc s (3 * a + k)%nat))
    by (intros k Hk; destruct (Ge i k Hi Hk) as [E _]; cbn beta in E; now rewrite E).
  rewrite one_row by assumption. f_equal. unfold sinh_of. rewrite D0.
  assert (T : forall k, (k < 3)%nat -> mat_taylor (scal3 0 (vel y p)) i k = one3 i k).
  { intros k Hk. unfold mat_taylor, add3, scal3, prod3, one3, eye3, delta. cbn [Rsum].
    destruct i as [|[|[|i]]]; [..|lia]; destruct k as [|[|[|k]]]; try lia; cbn [Nat.eqb]; ring. }
  rewrite (Rsum_ext 3 _ (fun k => one3 i k * (fun c => pc s c / m y a) (3 * a + k)%nat)) by (intros k Hk; rewrite T, m3_at by assumption; reflexivity).
  now apply (one_row (fun c => pc s c / m y a)).
Qed.
(** With the three diagonal entries fixed this is the case in every step. *)
Theorem fixed_diagonal_jump_refuted : exists y eig inv s p hmask, mask_from_fix ["xx"; "yy"; "zz"]%string = Some hmask /\
  (forall q, masked hmask q -> diag0 (vel y q) = true) /\ masked hmask p /\ qc (cell_qcstep y eig inv 0 s p) 0%nat <> qc s 0%nat.
Proof.
  exists (y_gas 1), (eigU U_id U_id), (fun _ => U_id), s_gas, (fun _ _ => 0). eexists. split; [reflexivity|].
  assert (D : forall q, masked (fold_left set0 [(2, 2)]%nat (fold_left set0 [(1, 1)]%nat (fold_left set0 [(0, 0)]%nat (fun _ _ => 1)))) q -> diag0 (vel (y_gas 1) q) = true).
  { intros q Mq. unfold diag0, vel. rewrite (Mq 0%nat 0%nat), (Mq 1%nat 1%nat), (Mq 2%nat 2%nat) by (lia || reflexivity). cbn [y_gas wmass].
    destruct (Req_EM_T (0 / 1) 0) as [_|N]; [reflexivity|]. exfalso. apply N. field. }
  split; [exact D|]. split; [intros i j _ _ _; reflexivity|].
  pose proof (zero_time_jump (y_gas 1) (eigU U_id U_id) (fun _ => U_id) s_gas (fun _ _ => 0) 0 0 ltac:(lia) ltac:(apply D; intros i j _ _ _; reflexivity)) as Z.
  change (3 * 0 + 0)%nat with 0%nat in Z. rewrite Z. cbn. lra.
Qed.
(** A cell velocity that np.linalg.eig cannot help with: no invertible matrix of
    eigenvectors. It has the entries xx and yy fixed. *)
Theorem no_eigenvectors_refuted : exists hmask v, mask_from_fix ["xx"; "yy"]%string = Some hmask /\ masked hmask v /\ upper v /\ diag0 v = false /\
  ~ exists (w : vec) (U iU : mat3), (forall i k, (i < 3)%nat -> (k < 3)%nat -> prod3 v U i k = U i k * w k) /\
      (forall i j, (i < 3)%nat -> (j < 3)%nat -> prod3 U iU i j = eye3 i j).
Proof.
  eexists. exists (rows3 0 1 0 0 0 0 0 0 1). split; [reflexivity|]. split; [|split; [repeat split; reflexivity|split]].
  - intros i j Hi Hj M0. destruct i as [|[|[|i]]]; [..|lia]; destruct j as [|[|[|j]]]; try lia; try reflexivity; exfalso; revert M0; cbn; lra.
  - unfold diag0. cbn. destruct (Req_EM_T 0 0); [|lra]. destruct (Req_EM_T 1 0); [lra|reflexivity].
  - intros (w & U & iU & Ev & In). assert (Z : forall k, (k < 3)%nat -> U 1%nat k = 0).
    { intros k Hk. pose proof (Ev 0%nat k ltac:(lia) Hk) as E0. pose proof (Ev 1%nat k ltac:(lia) Hk) as E1. unfold prod3 in E0, E1. cbn in E0, E1.
      destruct (Req_dec (w k) 0) as [W|W]; [rewrite W in E0; lra|]. assert (X : U 1%nat k * w k = 0) by lra. apply Rmult_integral in X as [X|X]; [exact X|contradiction]. }
    specialize (In 1%nat 1%nat ltac:(lia) ltac:(lia)). unfold prod3 in In. cbn in In. rewrite !Z in In by lia. lra.
Qed.

(** ** Representation of the momenta *)
Theorem to33_to6 p : upper p -> forall i j, (i < 3)%nat -> (j < 3)%nat -> to33 (to6 p) i j = p i j.
Proof. intros (U1 & U2 & U3) i j Hi Hj. destruct i as [|[|[|i]]]; [..|lia]; destruct j as [|[|[|j]]]; try lia; cbn; auto. Qed.
Theorem to6_to33 p k : (k < 6)%nat -> to6 (to33 p) k = p k /\ upper (to33 p).
Proof. intros H. split; [|repeat split; reflexivity]. destruct k as [|[|[|[|[|[|k]]]]]]; try lia; reflexivity. Qed.
(** The kinetic energy is that of six independent momenta. *)
Theorem kin_six y p : upper p -> kin33 y p = Rsum 6 (fun k => 1 / 2 * (to6 p k ^ 2 / wmass y)).
Proof. intros (U1 & U2 & U3). unfold kin33, trace, prod3. cbn. rewrite U1, U2, U3. unfold Rdiv. ring. Qed.
(** The momentum step keeps the momenta upper triangular. *)
Theorem pstep_upper y pi hmask volc l dt s p e : upper p -> upper (fst (cell_pstep y pi hmask volc l dt s (p, e))).
Proof.
  intros (U1 & U2 & U3). unfold cell_pstep, constrain, raw_pstep, triu, Lmat, eye3. cbn [fst].
  destruct volc; unfold upper; cbn [Nat.eqb Nat.leb]; destruct (innermost y l); rewrite ?U1, ?U2, ?U3; repeat split; unfold Rdiv; ring.
Qed.

(** ** Which momenta move the cell
    Executions of a step of the integrator, for the momenta of the barostat: a kick leaves masked (and traceless)
    momenta, a thermostat may leave anything (it acts on all six). [Run ops p l]: starting from
    momenta [p], the momenta at the drifts are [l]. *)
Inductive Run (good : mat3 -> Prop) : list MTSModel.op -> mat3 -> list mat3 -> Prop :=
  | run_nil p : Run good [] p []
  | run_P l r p p' ps : good p' -> Run good r p' ps -> Run good (MTSModel.P l :: r) p ps
  | run_T r p p' ps : Run good r p' ps -> Run good (MTSModel.T :: r) p ps
  | run_A r p ps : Run good r p ps -> Run good (MTSModel.A :: r) p (p :: ps)
  | run_Con r p ps : Run good r p ps -> Run good (MTSModel.Con :: r) p ps
  | run_S4 r p ps : Run good r p ps -> Run good (MTSModel.S4 :: r) p ps.
Lemma run_good (good : mat3 -> Prop) ops : forall p ps, (forall o, In o ops -> o <> MTSModel.T) -> good p -> Run good ops p ps -> Forall good ps.
Proof.
  induction ops as [|o r IH]; intros p ps N G H; inversion H; subst; clear H; try constructor; auto;
    try (eapply IH; [|eassumption|eassumption]; intros o' Ho; apply N; now right);
    try (exfalso; eapply N; [now left|reflexivity]).
Qed.
Lemma run_app_inv (good : mat3 -> Prop) a : forall b p ps, Run good (a ++ b) p ps -> exists pa pb p', ps = pa ++ pb /\ Run good a p pa /\ Run good b p' pb
   /\ ((forall o, In o a -> o <> MTSModel.T) -> good p -> good p').
Proof.
  induction a as [|o a IH]; intros b p ps H; [exists [], ps, p; repeat split; auto; constructor|].
  inversion H; subst; clear H; match goal with X : Run _ (a ++ b) _ _ |- _ => apply IH in X as (pa & pb & p2 & -> & Ra & Rb & Gd) end.
  - exists pa, pb, p2. repeat split; auto; [econstructor; eassumption|]. intros N _. apply Gd; [|assumption]. intros o Ho. apply N. now right.
  - exists pa, pb, p2. repeat split; auto; [econstructor; eassumption|]. intros N _. exfalso. eapply N; [now left|reflexivity].
  - exists (p :: pa), pb, p2. repeat split; auto; [constructor; assumption|]. intros N G. apply Gd; [|assumption]. intros o Ho. apply N. now right.
  - exists pa, pb, p2. repeat split; auto; [constructor; assumption|]. intros N G. apply Gd; [|assumption]. intros o Ho. apply N. now right.
  - exists pa, pb, p2. repeat split; auto; [constructor; assumption|]. intros N G. apply Gd; [|assumption]. intros o Ho. apply N. now right.
Qed.
Lemma no_T ns : forall idx, (forall o, In o (MTSModel.mtsprop_ba idx ns) -> o <> MTSModel.T) /\ (forall o, In o (MTSModel.mtsprop_ab idx ns) -> o <> MTSModel.T).
Proof.
  induction ns as [|k rest IH]; intros idx; [split; intros o []|].
  assert (I : forall o, In o (match rest with [] => [MTSModel.A; MTSModel.A] | _ => MTSModel.mtsprop_ba (S idx) rest ++ MTSModel.mtsprop_ab (S idx) rest end) -> o <> MTSModel.T).
  { destruct rest as [|k' rest']; [intros o [<-|[<-|[]]]; discriminate|]. destruct (IH (S idx)) as [I1 I2]. intros o Ho. apply in_app_or in Ho as [Ho|Ho]; auto. }
  assert (B : forall o, In o (concat (repeat ([MTSModel.P idx; MTSModel.Con] ++ match rest with [] => [MTSModel.A; MTSModel.A] | _ => MTSModel.mtsprop_ba (S idx) rest ++ MTSModel.mtsprop_ab (S idx) rest end ++ [MTSModel.P idx; MTSModel.Con]) (k / 2))) -> o <> MTSModel.T).
  { intros o Ho. apply in_concat in Ho as (l & Hl & Ho). apply repeat_spec in Hl. subst l.
    apply in_app_or in Ho as [[<-|[<-|[]]]|Ho]; try discriminate. apply in_app_or in Ho as [Ho|[<-|[<-|[]]]]; try discriminate. now apply I. }
  destruct (IH (S idx)) as [I1 I2]. split; intros o Ho; cbn [MTSModel.mtsprop_ba MTSModel.mtsprop_ab] in Ho; apply in_app_or in Ho as [Ho|Ho]; try (now apply (B o)).
  - destruct (k mod 2 =? 1)%nat; [|destruct Ho]. apply in_app_or in Ho as [[<-|[<-|[]]]|Ho]; try discriminate. destruct rest; [destruct Ho as [<-|[]]; discriminate|now apply I1].
  - destruct (k mod 2 =? 1)%nat; [|destruct Ho]. apply in_app_or in Ho as [Ho|[<-|[<-|[]]]]; try discriminate. destruct rest; [destruct Ho as [<-|[]]; discriminate|now apply I2].
Qed.
Lemma ba_starts k rest idx : (0 < k)%nat -> exists r, MTSModel.mtsprop_ba idx (k :: rest) = MTSModel.P idx :: r.
Proof.
  intros H. cbn [MTSModel.mtsprop_ba]. destruct (k / 2)%nat as [|n] eqn:E; [|cbn [repeat concat app]; eexists; reflexivity].
  assert (K : k = 1%nat) by (pose proof (Nat.div_mod k 2 ltac:(lia)); pose proof (Nat.mod_upper_bound k 2 ltac:(lia)); lia). subst k. cbn. eexists. reflexivity.
Qed.
Lemma ab_starts ns : forall idx, (forall k, In k ns -> (0 < k)%nat) -> (exists k, In k ns /\ (k mod 2 = 0)%nat) -> exists l r, MTSModel.mtsprop_ab idx ns = MTSModel.P l :: r.
Proof.
  induction ns as [|k rest IH]; intros idx Pos (e & He & Ev); [destruct He|]. cbn [MTSModel.mtsprop_ab].
  destruct (k mod 2 =? 1)%nat eqn:K.
  - apply Nat.eqb_eq in K. assert (Hr : In e rest) by (destruct He as [<-|He]; [lia|exact He]).
    destruct (IH (S idx)) as (l & r & E); [intros q Hq; apply Pos; now right|now exists e|]. destruct rest as [|k' rest']; [destruct Hr|]. rewrite E. do 2 eexists. reflexivity.
  - assert (N : (0 < k / 2)%nat).
    { apply Nat.eqb_neq in K. pose proof (Pos k ltac:(now left)). pose proof (Nat.div_mod k 2 ltac:(lia)). pose proof (Nat.mod_upper_bound k 2 ltac:(lia)). lia. }
    destruct (k / 2)%nat as [|n]; [lia|]. cbn [repeat concat app]. do 2 eexists. reflexivity.
Qed.
Lemma starts_good (good : mat3 -> Prop) ops l r p ps : ops = MTSModel.P l :: r -> (forall o, In o ops -> o <> MTSModel.T) -> Run good ops p ps -> Forall good ps.
Proof. intros -> N H. inversion H; subst. eapply run_good; [|eassumption|eassumption]. intros o Ho. apply N. now right. Qed.
(** OBABO: the cell always moves with momenta that obey the constraints. *)
Theorem obabo_drifts_constrained (good : mat3 -> Prop) ns p ps : MTSSched.factors ns -> Run good (MTSModel.nvt_step MTSModel.Obabo ns) p ps -> Forall good ps.
Proof.
  intros [Ne Pos] H. destruct ns as [|k rest]; [easy|]. cbn [MTSModel.nvt_step] in H.
  apply run_app_inv in H as (p1 & p2 & q & -> & H1 & H2 & _). apply run_app_inv in H2 as (p3 & p4 & q2 & -> & H3 & H4 & _).
  assert (E1 : p1 = []) by (inversion H1; subst; match goal with X : Run _ [MTSModel.Con] _ _ |- _ => inversion X; subst; match goal with Z : Run _ [] _ _ |- _ => inversion Z; reflexivity end end).
  assert (E4 : p4 = []) by (inversion H4; subst; match goal with X : Run _ [MTSModel.Con] _ _ |- _ => inversion X; subst; match goal with Z : Run _ [] _ _ |- _ => inversion Z; reflexivity end end).
  subst. cbn. rewrite app_nil_r. destruct (ba_starts k rest 0 ltac:(apply Pos; now left)) as [r E]. destruct (no_T (k :: rest) 0) as [N1 N2].
  eapply (starts_good good (MTSModel.mtsprop 0 (k :: rest)) 0%nat (r ++ MTSModel.mtsprop_ab 0 (k :: rest))); [|intros o Ho; apply in_app_or in Ho as [Ho|Ho]; auto|exact H3].
  unfold MTSModel.mtsprop. now rewrite E.
Qed.
(** BAOAB: only if one of the numbers of substeps is even ... *)
Theorem baoab_drifts_constrained_partial (good : mat3 -> Prop) ns p ps : MTSSched.factors ns -> (exists k, In k ns /\ (k mod 2 = 0)%nat) ->
  Run good (MTSModel.nvt_step MTSModel.Baoab ns) p ps -> Forall good ps.
Proof.
  intros [Ne Pos] Ev H. destruct ns as [|k rest]; [easy|]. cbn [MTSModel.nvt_step] in H.
  apply run_app_inv in H as (p1 & p2 & q & -> & H1 & H2 & _). apply run_app_inv in H2 as (p3 & p4 & q2 & -> & H3 & H4 & _).
  assert (E3 : p3 = []) by (inversion H3; subst; match goal with X : Run _ [MTSModel.Con] _ _ |- _ => inversion X; subst; match goal with Z : Run _ [] _ _ |- _ => inversion Z; reflexivity end end).
  subst. cbn [app]. destruct (no_T (k :: rest) 0) as [N1 N2]. apply Forall_app. split.
  - destruct (ba_starts k rest 0 ltac:(apply Pos; now left)) as [r E]. eapply starts_good; eassumption.
  - destruct (ab_starts (k :: rest) 0 Pos Ev) as (l & r & E). eapply starts_good; eassumption.
Qed.
(** ... and not with a single level and one substep: the second half of the drift uses
    what the thermostat left. *)
Theorem baoab_drifts_refuted : exists hmask, mask_from_fix ["xy"%string] = Some hmask /\
  exists p ps, masked hmask p /\ Run (masked hmask) (MTSModel.nvt_step MTSModel.Baoab [1%nat]) p ps /\ ~ Forall (masked hmask) ps.
Proof.
  eexists. split; [reflexivity|]. exists (fun _ _ => 0), [(fun _ _ => 0); U_shear]. split; [intros i j _ _ _; reflexivity|]. split.
  - change (MTSModel.nvt_step MTSModel.Baoab [1%nat]) with [MTSModel.P 0; MTSModel.Con; MTSModel.A; MTSModel.T; MTSModel.Con; MTSModel.A; MTSModel.P 0; MTSModel.Con].
    apply run_P with (p' := fun _ _ => 0); [intros i j _ _ _; reflexivity|]. apply run_Con, run_A, run_T with (p' := U_shear), run_Con, run_A.
    apply run_P with (p' := fun _ _ => 0); [intros i j _ _ _; reflexivity|]. apply run_Con, run_nil.
  - intros F. inversion F as [|? ? _ F2]; subst. inversion F2 as [|? ? M _]; subst. specialize (M 0%nat 1%nat ltac:(lia) ltac:(lia) eq_refl). revert M. cbn. lra.
Qed.
(** The premises can be met: a run of OBABO. *)
Example obabo_run_case : MTSSched.factors [1%nat] /\ Run (fun p => trace p = 0) (MTSModel.nvt_step MTSModel.Obabo [1%nat]) U_id [(fun _ _ => 0); (fun _ _ => 0)].
Proof.
  split; [split; [discriminate|intros k [<-|[]]; lia]|].
  change (MTSModel.nvt_step MTSModel.Obabo [1%nat]) with [MTSModel.T; MTSModel.Con; MTSModel.P 0; MTSModel.Con; MTSModel.A; MTSModel.A; MTSModel.P 0; MTSModel.Con; MTSModel.T; MTSModel.Con].
  apply run_T with (p' := U_id), run_Con, run_P with (p' := fun _ _ => 0); [unfold trace; ring|]. apply run_Con, run_A, run_A.
  apply run_P with (p' := fun _ _ => 0); [unfold trace; ring|]. apply run_Con, run_T with (p' := U_id), run_Con, run_nil.
Qed.

Print Assumptions mask_exact.
Print Assumptions mask_errors.
Print Assumptions masked_after_pstep.
Print Assumptions volume_rate.
Print Assumptions hfix_moves_cell_refuted.
Print Assumptions zero_time_jump.
Print Assumptions fixed_diagonal_jump_refuted.
Print Assumptions no_eigenvectors_refuted.
Print Assumptions obabo_drifts_constrained.
Print Assumptions baoab_drifts_constrained_partial.
Print Assumptions baoab_drifts_refuted.
