(* C58: MPI driver ranks are shared out among the force fields by name, and
   results go back to the requests they belong to. *)
From Coq Require Import String List Arith ZArith Bool Lia Permutation Sorted.
From Verif Require Import WireModel WireSpec WireProofs MpiModel MpiProofs.
Import ListNotations.
Local Open Scope nat_scope.

(* ---------------- driver groups ---------------- *)

(* every driver rank belongs to exactly one group, of ranks of its own pool *)
Theorem every_rank_in_one_group L size x : 1 <= x < size ->
  exists m, In m (hellos L size) /\ In x (members m) /\ id_of L (root m) = id_of L x /\
    forall m', In m' (hellos L size) -> In x (members m') -> m' = m.
Proof.
  intros Hx. destruct (hellos_cover L size x Hx) as (m & Hm & Hin). exists m. split; [easy|]. split; [easy|]. split.
  - apply in_hellos in Hm. destruct Hm as (r & _ & _ & ->). cbn in *. apply in_group in Hin. intuition congruence.
  - intros m' Hm' Hin'. eapply hellos_unique; eauto.
Qed.

Lemma pool_rank_lt L x y : 1 <= x < y -> id_of L x = id_of L y -> pool_rank L x < pool_rank L y.
Proof.
  intros H E. unfold pool_rank. replace (y - 1) with ((x - 1) + S (y - x - 1)) by lia.
  rewrite seq_app, filter_app, app_length. replace (1 + (x - 1)) with x by lia. cbn [seq filter]. rewrite E, Nat.eqb_refl.
  cbn. lia.
Qed.

(* a group has no more ranks than asked for *)
Theorem group_no_larger_than_asked L size m g : 0 < g -> In m (hellos L size) ->
  (forall x, In x (members m) -> size_of L x = g) -> length (members m) <= g.
Proof.
  intros Hg Hm Hs. apply in_hellos in Hm. destruct Hm as (r & _ & _ & ->). cbn in *.
  rewrite <- (map_length (pool_rank L)).
  rewrite <- (seq_length g (colour L r * g)). apply NoDup_incl_length.
  - assert (N := group_nodup L size r).
    assert (G : forall l, NoDup l -> (forall x, In x l -> In x (group L size r)) -> NoDup (map (pool_rank L) l)).
    { induction l as [|x l IH]; intros Nl Hl; cbn; [constructor|]. inversion Nl; subst. constructor.
      - intros K. apply in_map_iff in K. destruct K as (y & E & Hy).
        pose proof (Hl x (or_introl eq_refl)) as Hx. pose proof (Hl y (or_intror Hy)) as Hy'.
        rewrite in_group in Hx, Hy'. destruct Hx as (Rx & Ix & _), Hy' as (Ry & Iy & _).
        destruct (Nat.lt_trichotomy x y) as [L1|[->|L1]]; [|easy|].
        + pose proof (pool_rank_lt L x y). lia.
        + pose proof (pool_rank_lt L y x). lia.
      - apply IH; [easy|]. intros z Hz. apply Hl. cbn; auto. }
    apply G; auto.
  - intros k Hk. apply in_map_iff in Hk. destruct Hk as (x & <- & Hx). pose proof (Hs x Hx) as Sx.
    apply in_group in Hx. destruct Hx as (_ & _ & Cx). unfold colour in Cx at 1. rewrite Sx in Cx.
    apply in_seq. rewrite <- Cx. pose proof (Nat.div_mod (pool_rank L x) g). pose proof (Nat.mod_upper_bound (pool_rank L x) g). nia.
Qed.

Lemma perm_proper L size ms : Permutation ms (hellos L size) -> proper size ms.
Proof.
  intros P. split.
  - intros m Hm. eapply hellos_root. eapply Permutation_in; eauto.
  - transitivity (concat (map members (hellos L size))); [|apply hellos_partition].
    rewrite <- !flat_map_concat_map. now apply Permutation_flat_map.
Qed.

(* i-PI waits for exactly the messages that are sent, in whatever order they
   arrive, and files every root under the name it announced *)
Theorem handshake_hears_every_group L size ms : Permutation ms (hellos L size) ->
  exists b, handshake size ms [] [] = Some (b, []) /\
    forall n, Permutation (bget n b) (map root (filter (fun m => String.eqb (tag m) n) ms)).
Proof.
  intros P. exists (gather ms []). split; [apply proper_handshake, (perm_proper L _ _ P)|].
  intros n. now rewrite bget_gather.
Qed.

Definition startup (registered : list string) (size : nat) (ms : list hello) : option buckets :=
  match handshake size ms [] [] with Some (b, _) => assign registered b | None => None end.

Lemma assign_many reg b : 2 <= length reg -> assign reg b =
      if isname "" (map fst b) then None
      else if negb (forallb (fun n => isname n reg) (map fst b)) then None
      else if negb (forallb (fun n => negb (Nat.eqb (length (bget n b)) 0)) reg) then None
      else Some (map (fun e => (fst e, sort (snd e))) b).
Proof. intros H. destruct reg as [|r1 [|r2 reg]]; cbn in H; [lia|lia|reflexivity]. Qed.

Lemma assign_many_some reg b a : 2 <= length reg -> assign reg b = Some a -> a = map (fun e => (fst e, sort (snd e))) b.
Proof.
  intros Hl. rewrite assign_many by easy. destruct (isname _ _); [easy|]. destruct (negb _); [easy|].
  destruct (negb _); [easy|]. congruence.
Qed.

(* with two or more force fields, every root goes to the force field of its
   name and to no other; every force field has drivers, in order of rank *)
Theorem drivers_assigned_by_name reg L size ms a : 2 <= length reg -> Permutation ms (hellos L size) ->
  startup reg size ms = Some a ->
  (forall m, In m ms -> In (tag m) reg /\ forall n, In (root m) (roots_for n a) <-> n = tag m) /\
  (forall n, In n reg -> roots_for n a <> [] /\ StronglySorted le (roots_for n a)).
Proof.
  intros Hl P E. pose proof (perm_proper _ _ _ P) as Hp.
  unfold startup in E. rewrite (proper_handshake _ _ Hp), assign_many in E by easy.
  destruct (isname "" _); [easy|].
  destruct (forallb _ (map fst _)) eqn:E1; [|easy].
  destruct (forallb _ reg) eqn:E2; [|easy]. cbn [negb] in E. inversion E; subst a. clear E.
  rewrite forallb_forall in E1, E2. unfold roots_for. split.
  - intros m Hm. split.
    + apply isname_In, E1, gather_keys. right. eauto.
    + intros n. rewrite bget_sorted, sort_in, in_bget_gather. split.
      * intros (m' & Hm' & <- & Er). now rewrite (proper_unique _ _ _ _ Hp Hm' Hm Er).
      * intros ->. eauto.
  - intros n Hn. rewrite bget_sorted. split; [|apply sort_sorted].
    intros K. apply (proj1 (sort_nil (bget n (gather ms [])))) in K. specialize (E2 n Hn). now rewrite K in E2.
Qed.

(* start-up is refused exactly when a driver has no name, or one that is not
   a force field's, or when a force field would have no driver *)
Theorem startup_refused_iff reg L size ms : 2 <= length reg -> Permutation ms (hellos L size) ->
  (startup reg size ms = None <->
   (exists m, In m ms /\ (tag m = ""%string \/ ~ In (tag m) reg)) \/ (exists n, In n reg /\ forall m, In m ms -> tag m <> n)).
Proof.
  intros Hl P. pose proof (perm_proper _ _ _ P) as Hp.
  unfold startup. rewrite (proper_handshake _ _ Hp), assign_many by easy.
  destruct (isname "" _) eqn:E0.
  { split; [intros _|easy]. left. apply isname_In, gather_keys in E0. destruct E0 as [[]|(m & Hm & K)]. eauto. }
  destruct (forallb _ (map fst _)) eqn:E1; cbn [negb].
  2:{ split; [intros _|easy]. left.
      assert (G : exists n, In n (map fst (gather ms [])) /\ isname n reg = false).
      { clear - E1. induction (map fst (gather ms [])) as [|n l IH]; [easy|]. cbn in E1.
        destruct (isname n reg) eqn:K; [|exists n; cbn; auto]. destruct (IH E1) as (k & Hk & K'). exists k. cbn; auto. }
      destruct G as (n & Hn & K). apply gather_keys in Hn. destruct Hn as [[]|(m & Hm & <-)].
      exists m. split; [easy|]. right. rewrite <- isname_In. congruence. }
  rewrite forallb_forall in E1.
  destruct (forallb _ reg) eqn:E2; cbn [negb].
  - split; [easy|]. intros [(m & Hm & [K|K])|(n & Hn & K)]; exfalso.
    + rewrite <- not_true_iff_false, isname_In in E0. apply E0, gather_keys. right. eauto.
    + apply K, isname_In, E1, gather_keys. right. eauto.
    + rewrite forallb_forall in E2. specialize (E2 n Hn). rewrite negb_true_iff, Nat.eqb_neq in E2. apply E2.
      rewrite length_zero_iff_nil. destruct (bget n (gather ms [])) as [|r l] eqn:G; [easy|].
      assert (Hr : In r (bget n (gather ms []))) by (rewrite G; cbn; auto). apply in_bget_gather in Hr.
      destruct Hr as (m & Hm & T & _). exfalso. now apply (K m Hm).
  - split; [intros _|easy]. right.
    assert (G : exists n, In n reg /\ bget n (gather ms []) = []).
    { clear - E2. induction reg as [|n l IH]; [easy|]. cbn in E2.
      destruct (Nat.eqb_spec (length (bget n (gather ms []))) 0) as [K|K]; cbn in E2.
      - exists n. split; [cbn; auto|]. now apply length_zero_iff_nil.
      - destruct (IH E2) as (k & Hk & K'). exists k. cbn; auto. }
    destruct G as (n & Hn & G). exists n. split; [easy|]. intros m Hm K.
    assert (Hr : In (root m) (bget n (gather ms []))) by (apply in_bget_gather; eauto). now rewrite G in Hr.
Qed.

(* the order in which messages arrive does not matter *)
Theorem assignment_ignores_arrival_order reg L size ms ms' : reg <> [] -> Permutation ms (hellos L size) -> Permutation ms' (hellos L size) ->
  match startup reg size ms, startup reg size ms' with
  | Some a, Some a' => forall n, roots_for n a = roots_for n a'
  | None, None => True
  | _, _ => False
  end.
Proof.
  intros Hr P P'. assert (PP : Permutation ms ms') by (etransitivity; [exact P|symmetry; exact P']).
  assert (B : forall n, Permutation (bget n (gather ms [])) (bget n (gather ms' []))).
  { intros n. rewrite !bget_gather. cbn. apply Permutation_map, permutation_filter, PP. }
  destruct (le_lt_dec 2 (length reg)) as [Hl|Hl].
  - pose proof (startup_refused_iff reg _ _ _ Hl P) as R. pose proof (startup_refused_iff reg _ _ _ Hl P') as R'.
    assert (RR : startup reg size ms = None <-> startup reg size ms' = None).
    { rewrite R, R'. split; (intros [(m & Hm & K)|(n & Hn & K)]; [left; exists m; split; [|easy]|right; exists n; split; [easy|]; intros m Hm; apply K]);
        (eapply Permutation_in; [|exact Hm]; auto using Permutation_sym). }
    destruct (startup reg size ms) as [a|] eqn:E, (startup reg size ms') as [a'|] eqn:E'; try easy; try (destruct RR; intuition congruence).
    unfold startup in E, E'. rewrite (proper_handshake _ _ (perm_proper _ _ _ P)) in E.
    rewrite (proper_handshake _ _ (perm_proper _ _ _ P')) in E'.
    rewrite (assign_many_some _ _ _ Hl E), (assign_many_some _ _ _ Hl E'). intros n. unfold roots_for. rewrite !bget_sorted. now apply sort_Permutation.
  - unfold startup. rewrite (proper_handshake _ _ (perm_proper _ _ _ P)), (proper_handshake _ _ (perm_proper _ _ _ P')).
    destruct reg as [|only [|]]; cbn in Hl; [| |lia].
    + easy.
    + cbn. intros n. destruct (String.eqb only n); [|easy]. apply sort_Permutation.
      rewrite !gather_concat. cbn. rewrite !app_nil_r. now apply Permutation_map.
Qed.

(* when ranks of one pool were launched with one name, a rank works for the
   force field it was launched for: the root of its group is one of its drivers *)
Theorem rank_serves_its_force_field reg L size ms a x : 2 <= length reg -> Permutation ms (hellos L size) ->
  startup reg size ms = Some a -> 1 <= x < size ->
  (forall y, 1 <= y < size -> id_of L y = id_of L x -> name_of L y = name_of L x) ->
  exists m, In m ms /\ In x (members m) /\ In (name_of L x) reg /\
    forall n, In (root m) (roots_for n a) <-> n = name_of L x.
Proof.
  intros Hl P E Hx Hn. destruct (every_rank_in_one_group L size x Hx) as (m & Hm & Hin & Hid & _).
  assert (Hm' : In m ms) by (eapply Permutation_in; [symmetry; exact P|easy]).
  exists m. split; [easy|]. split; [easy|].
  destruct (drivers_assigned_by_name _ _ _ _ _ Hl P E) as (D & _). specialize (D m Hm').
  assert (T : tag m = name_of L x).
  { apply in_hellos in Hm. destruct Hm as (r & Hr & _ & ->). cbn in *. now apply Hn. }
  rewrite <- T. exact D.
Qed.

(* one force field takes all drivers *)
Theorem lone_force_field_takes_all only L size ms : Permutation ms (hellos L size) ->
  exists a, startup [only] size ms = Some a /\ StronglySorted le (roots_for only a) /\
    Permutation (roots_for only a) (map root ms) /\ forall n, n <> only -> roots_for n a = [].
Proof.
  intros P. unfold startup. rewrite (proper_handshake _ _ (perm_proper _ _ _ P)). cbn. eexists. split; [reflexivity|].
  unfold roots_for. cbn. rewrite String.eqb_refl. split; [apply sort_sorted|]. split.
  - rewrite sort_perm, gather_concat. cbn. now rewrite app_nil_r.
  - intros n Hn. destruct (String.eqb_spec only n); [congruence|easy].
Qed.

(* ranks 1-2 are one group of a force field water, 3-4 and 5 groups of another *)
Definition launched : launch :=
  Launch (fun r => if r <=? 2 then 0 else 1) (fun _ => 2) (fun r => if r <=? 2 then "water"%string else "ice"%string).
Example groups_here : hellos launched 6 =
  [Hello 1 [1; 2] "water"; Hello 3 [3; 4] "ice"; Hello 5 [5] "ice"].
Proof. reflexivity. Qed.
Example assigned_here :
  startup ["ice"; "water"]%string 6 [Hello 5 [5] "ice"; Hello 1 [1; 2] "water"; Hello 3 [3; 4] "ice"]
  = Some [("ice"%string, [3; 5]); ("water"%string, [1])].
Proof. reflexivity. Qed.
Example refused_here : startup ["ice"; "rock"]%string 6 (hellos launched 6) = None.
Proof. reflexivity. Qed.

(* false: a lone force field is not the one the drivers were launched for *)
Theorem lone_force_field_takes_others_drivers_refuted :
  exists L size a m, startup ["gold"%string] size (hellos L size) = Some a /\ In m (hellos L size) /\
    tag m <> ""%string /\ tag m <> "gold"%string /\ In (root m) (roots_for "gold" a).
Proof.
  exists launched, 6, [("gold"%string, [1; 3; 5])], (Hello 1 [1; 2] "water").
  split; [reflexivity|]. split; [cbn; auto|]. split; [easy|]. split; [easy|]. cbn. auto.
Qed.

(* false without the condition on pools: with one mpi_id for all, a rank can be
   put in a group that works for another force field *)
Definition mislaunched : launch :=
  Launch (fun _ => 0) (fun _ => 2) (fun r => if r <=? 1 then "water"%string else "ice"%string).
Theorem group_across_names_refuted :
  exists a m, startup ["ice"; "water"]%string 4 (hellos mislaunched 4) = Some a /\ In m (hellos mislaunched 4) /\
    In 2 (members m) /\ name_of mislaunched 2 = "ice"%string /\ In (root m) (roots_for "water" a) /\ ~ In (root m) (roots_for "ice" a).
Proof.
  exists [("water"%string, [1]); ("ice"%string, [3])], (Hello 1 [1; 2] "water").
  split; [reflexivity|]. split; [cbn; auto|]. split; [cbn; auto|]. split; [easy|]. split; cbn; [auto|intros [K|[]]; easy].
Qed.

(* ---------------- messages ---------------- *)

Section Pool.
Context {F : Type}.
Notation struct := (MpiModel.struct F). Notation result := (MpiModel.result F).

(* the driver reads from a WORK message the cells and positions of the batch,
   in order *)
Theorem work_message_read_back (batch : list struct) nat n body : pack_work batch = Some (nat, n, body) ->
  unpack_work nat n body = map (fun s => (h s, pos s)) batch.
Proof. intros H. now destruct (pack_unpack_work _ _ _ _ H) as (_ & H' & _). Qed.

(* i-PI reads from a RESULT and an EXTRA message the results, in order *)
Theorem result_message_read_back nat (rs : list result) num eb : pack_result nat rs = Some (num, eb) ->
  (forall r, In r rs -> unicode (extra r) /\ small (length (utf8 (extra r)))) ->
  unpack_results (length rs) 0 nat num eb = Some rs.
Proof. intros H K. eapply pack_unpack_results; [exact H|exact K]. Qed.

(* ---------------- the pool ---------------- *)

Variable eval : list F * list F -> result.
Variable shift : F -> F.
Variable bs : nat.
Variable ranks : list nat.
Hypothesis bs_pos : 0 < bs.
Hypothesis ranks_once : NoDup ranks.
Hypothesis extras_ok : forall a, unicode (extra (eval a)) /\ small (length (utf8 (extra (eval a)))).
Notation run es := (run F eval shift bs es (start ranks)).

(* a finished request has the driver's result for its own structure, whatever
   else was in the batch and however the drivers interleave *)
Theorem finished_request_has_its_result es x i q r : run es = Some x ->
  nth_error (requests x) i = Some q -> status_of q = Done r ->
  let e := eval (h (st q), pos (st q)) in
  pot r = shift (pot e) /\ force r = force e /\ vir r = vir e /\ extra r = extra e.
Proof.
  intros E Hq Hs.
  destruct (run_inv eval shift extras_ok bs es bs_pos _ _ (start_inv eval shift ranks ranks_once) E) as (I & _).
  rewrite (i_done _ _ _ _ _ I i q r Hq Hs). easy.
Qed.

(* a request is running exactly when it is with one driver, once *)
Definition held (x : state F) (i : nat) : nat :=
  count_occ Nat.eq_dec (flat_map (fun s => match work s with Some (ids, _) => ids | None => [] end) (slots x)) i.
Theorem running_request_with_one_driver es x i q : run es = Some x ->
  nth_error (requests x) i = Some q ->
  (status_of q = Running -> held x i = 1) /\ (status_of q <> Running -> held x i = 0).
Proof.
  intros E Hq.
  destruct (run_inv eval shift extras_ok bs es bs_pos _ _ (start_inv eval shift ranks ranks_once) E) as (I & _).
  split.
  - intros K. pose proof (i_run _ _ _ _ _ I i q Hq K) as B. pose proof (i_busy _ _ _ _ _ I) as N.
    unfold held. change (count_occ Nat.eq_dec (busy (slots x)) i = 1).
    rewrite (NoDup_count_occ' Nat.eq_dec) in N. now apply N.
  - intros K. apply count_occ_not_In. intros B. apply K. eapply busy_running; eauto.
Qed.

(* a request keeps its structure and never goes back: queued, running,
   finished with a result that does not change, released *)
Theorem requests_move_forward es es' x y i q : run es = Some x -> run (es ++ es') = Some y ->
  nth_error (requests x) i = Some q ->
  exists q', nth_error (requests y) i = Some q' /\ st q' = st q /\
    match status_of q, status_of q' with
    | Queued, _ => True
    | Running, (Running | Done _ | Released) => True
    | Done r, Done r' => r = r'
    | Done _, Released => True
    | Released, Released => True
    | _, _ => False
    end.
Proof.
  intros E E' Hq. rewrite run_app, E in E'.
  destruct (run_inv eval shift extras_ok bs es bs_pos _ _ (start_inv eval shift ranks ranks_once) E) as (I & _).
  destruct (run_moved eval shift extras_ok bs es' bs_pos _ _ I E' i q Hq) as (q' & H1 & H2 & H3). exists q'. now split.
Qed.

(* if structures have one size and drivers answer with results of that size,
   no poll fails and every request is finished after enough polls: one more
   than there are requests, when the drivers answer between polls *)
Theorem every_request_finished es x N : run es = Some x -> ranks <> [] ->
  (forall q, In q (requests x) -> length (h (st q)) = 9 /\ length (ih (st q)) = 9 /\ length (pos (st q)) = 3 * N) ->
  (forall c p, length (force (eval (c, p))) = length p /\ length (vir (eval (c, p))) = 9) ->
  exists y, run (es ++ concat (repeat (map Turn ranks ++ [Poll]) (S (length (requests x))))) = Some y /\
    length (requests y) = length (requests x) /\
    forall q, In q (requests y) -> status_of q = Released \/ exists r, status_of q = Done r.
Proof.
  intros E Hne Hu Hs.
  destruct (run_inv eval shift extras_ok bs es bs_pos _ _ (start_inv eval shift ranks ranks_once) E) as (I & R).
  unfold start in R. cbn in R. rewrite map_map in R. cbn in R. rewrite map_id in R.
  assert (U : all_uniform N (requests x)).
  { intros s K. apply in_map_iff in K. destruct K as (q & <- & Hq). exact (Hu q Hq). }
  assert (Hk : nq (requests x) < S (length (requests x))).
  { unfold nq. clear. induction (requests x) as [|q l IH]; cbn; [lia|]. destruct (is_queued q); cbn; lia. }
  assert (Hsl : slots x <> []) by (intros K; rewrite K in R; now apply Hne).
  destruct (rounds_end eval shift extras_ok Hs N bs (S (length (requests x))) bs_pos x I U Hsl Hk) as (y & Ey & Iy & Sy & Qy & Idle).
  exists y. rewrite run_app, E. rewrite R in Ey. split; [|split].
  - rewrite <- Ey. f_equal. generalize (S (length (requests x))). intros k. induction k; [easy|].
    cbn [repeat concat rounds]. now rewrite IHk.
  - rewrite <- (map_length st (requests y)), Sy. apply map_length.
  - intros q Hq. destruct (status_of q) as [| |r|] eqn:Es; [| |eauto|auto]; exfalso.
    + assert (K : In q (filter is_queued (requests y))) by (apply filter_In; split; [easy|unfold is_queued; now rewrite Es]).
      unfold nq in Qy. apply length_zero_iff_nil in Qy. now rewrite Qy in K.
    + apply In_nth_error in Hq. destruct Hq as (i & Hi). pose proof (i_run _ _ _ _ _ Iy i q Hi Es) as B.
      apply busy_in in B. destruct B as (t & Ht & Hin). unfold ids_of in Hin. now rewrite (Idle t Ht) in Hin.
Qed.
End Pool.

(* a driver for which the energy is the sum of coordinates, the offset is 100 *)
Definition sum := fold_right Z.add 0%Z.
Definition springs (a : list Z * list Z) : result Z := Result (sum (snd a)) (map Z.opp (snd a)) (fst a) [233%Z].
Definition nine (z : Z) : list Z := repeat z 9.
Definition sample (k : Z) (n : nat) : struct Z := Struct (nine k) (nine 1%Z) (repeat k (3 * n)) (seq 0 (3 * n)).
Definition off (z : Z) : Z := (z - 100)%Z.

Example pool_here :
  option_map (fun x => map status_of (requests x))
    (run Z springs off 2
       [Queue (sample 1 2); Queue (sample 2 2); Queue (sample 3 2); Poll; Queue (sample 4 2); Turn 7; Turn 4; Release 0; Poll; Turn 4; Release 1; Poll]
       (start [4; 7]))
  = Some [Done (Result (-94)%Z (repeat (-1)%Z 6) (nine 1) [233%Z]); Released;
          Done (Result (-82)%Z (repeat (-3)%Z 6) (nine 3) [233%Z]); Done (Result (-76)%Z (repeat (-4)%Z 6) (nine 4) [233%Z])].
Proof. vm_compute. reflexivity. Qed.
Example springs_extras : forall a, unicode (extra (springs a)) /\ small (length (utf8 (extra (springs a)))).
Proof. intros a. split; [intros c [<-|[]]; lia|]. vm_compute. reflexivity. Qed.

(* false: structures of different size in one force field, as two systems may
   have, cannot be in one batch; the poll fails *)
Theorem mixed_batch_fails_refuted :
  exists s1 s2 : struct Z, length (pos s1) = 3 /\ length (pos s2) = 6 /\
    run Z springs off 2 [Queue s1; Queue s2; Poll] (start [1]) = None /\
    run Z springs off 1 [Queue s1; Queue s2; Poll; Turn 1; Poll; Turn 1; Poll] (start [1]) <> None.
Proof. exists (sample 1 1), (sample 1 2). repeat (split; [reflexivity|]). vm_compute. discriminate. Qed.

(* false: the driver is shown all coordinates, not the active ones only *)
Theorem active_atoms_ignored_refuted :
  exists s : struct Z, act s = [3; 4; 5] /\ length (pos s) = 6 /\
    exists x r, run Z springs off 1 [Queue s; Poll; Turn 1; Poll] (start [1]) = Some x /\
      nth_error (requests x) 0 = Some (Request s (Done r)) /\
      nth 0 (force r) 0%Z <> 0%Z /\ length (force r) = 6.
Proof.
  exists (Struct (nine 1) (nine 1) [1; 1; 1; 2; 2; 2]%Z [3; 4; 5]). split; [easy|]. split; [easy|].
  eexists _, _. split; [vm_compute; reflexivity|]. split; [reflexivity|]. split; [easy|reflexivity].
Qed.

Print Assumptions every_rank_in_one_group.
Print Assumptions group_no_larger_than_asked.
Print Assumptions handshake_hears_every_group.
Print Assumptions drivers_assigned_by_name.
Print Assumptions startup_refused_iff.
Print Assumptions assignment_ignores_arrival_order.
Print Assumptions rank_serves_its_force_field.
Print Assumptions lone_force_field_takes_all.
Print Assumptions lone_force_field_takes_others_drivers_refuted.
Print Assumptions group_across_names_refuted.
Print Assumptions work_message_read_back.
Print Assumptions result_message_read_back.
Print Assumptions finished_request_has_its_result.
Print Assumptions running_request_with_one_driver.
Print Assumptions requests_move_forward.
Print Assumptions every_request_finished.
Print Assumptions mixed_batch_fails_refuted.
Print Assumptions active_atoms_ignored_refuted.
