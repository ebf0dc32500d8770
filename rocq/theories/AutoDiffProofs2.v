(* The static cost function. *)
From Coq Require Import Reals List ZArith Bool Lia Lra.
From Verif Require Import JetModel JetSpec AutoDiffModel AutoDiffSpec AutoDiffProofs.
Import ListNotations.
Local Open Scope nat_scope.

Lemma upd_eq {A} (m : nat -> A) i v : upd m i v i = v.
Proof. unfold upd. rewrite Nat.eqb_refl. reflexivity. Qed.
Lemma upd_ne {A} (m : nat -> A) i v j : j <> i -> upd m i v j = m j.
Proof. intro H. unfold upd. destruct (Nat.eqb_spec j i); [contradiction|reflexivity]. Qed.

Lemma seq_snoc a n : seq a (S n) = seq a n ++ [a + n].
Proof. replace (S n) with (n + 1) by lia. rewrite seq_app. reflexivity. Qed.

(* a loop that writes g i at position a + i *)
Lemma write_loop {A} (a n : nat) (g : nat -> A) (m : nat -> A) p :
  fold_left (fun m i => upd m (a + i) (g i)) (seq 0 n) m p =
  if (a <=? p) && (p <? a + n) then g (p - a) else m p.
Proof.
  induction n as [|n IH].
  - cbn [seq fold_left]. destruct (Nat.leb_spec a p); destruct (Nat.ltb_spec p (a + 0)); cbn [andb]; try reflexivity; lia.
  - rewrite seq_snoc, fold_left_app. cbn [fold_left]. unfold upd at 1.
    replace (0 + n) with n by lia.
    destruct (Nat.eqb_spec p (a + n)) as [->|Hne].
    + destruct (Nat.leb_spec a (a + n)); destruct (Nat.ltb_spec (a + n) (a + S n)); cbn; try lia. f_equal. lia.
    + rewrite IH. destruct (Nat.leb_spec a p); destruct (Nat.ltb_spec p (a + n)); destruct (Nat.ltb_spec p (a + S n)); cbn; try reflexivity; lia.
Qed.

Lemma perturbation_at N off x m p :
  Make1stOrderPerturbation N off x m p =
  if (off <=? p) && (p <? off + N) then jvar (x p) p else m p.
Proof.
  unfold Make1stOrderPerturbation.
  rewrite (write_loop off N (fun i => jvar (x (off + i)) (i + off)) m p).
  destruct (Nat.leb_spec off p); destruct (Nat.ltb_spec p (off + N)); cbn [andb]; try reflexivity.
  replace (off + (p - off)) with p by lia. replace (p - off + off) with p by lia. reflexivity.
Qed.

Lemma perturbations_at Ns off x m p :
  Make1stOrderPerturbations Ns off x m p =
  if (off <=? p) && (p <? off + total Ns) then jvar (x p) p else m p.
Proof.
  revert off m. induction Ns as [|n Ns IH]; intros off m; cbn [Make1stOrderPerturbations total fold_right].
  - destruct (Nat.leb_spec off p); destruct (Nat.ltb_spec p (off + 0)); cbn; try reflexivity; lia.
  - rewrite IH, perturbation_at. change (fold_right Nat.add 0 Ns) with (total Ns).
    destruct (Nat.leb_spec (off + n) p); destruct (Nat.ltb_spec p (off + n + total Ns));
      destruct (Nat.leb_spec off p); destruct (Nat.ltb_spec p (off + n)); destruct (Nat.ltb_spec p (off + (n + total Ns)));
      cbn [andb]; try reflexivity; lia.
Qed.

Lemma take_at N0 N M src d i :
  Take1stOrderPart N0 N M src d i =
  if i <? M * N then jv (src (i / N)) (N0 + i mod N) else d i.
Proof.
  unfold Take1stOrderPart. induction M as [|M IH]; [reflexivity|].
  rewrite seq_snoc, fold_left_app. cbn [fold_left]. replace (0 + M) with M by lia.
  rewrite (write_loop (N * M) N (fun j => jv (src M) (N0 + j))). rewrite IH. clear IH.
  destruct (Nat.leb_spec (N * M) i); destruct (Nat.ltb_spec i (N * M + N)); destruct (Nat.ltb_spec i (S M * N));
    destruct (Nat.ltb_spec i (M * N)); cbn [andb]; try reflexivity; try lia.
  assert (i / N = M) as E1. { symmetry. apply (Nat.div_unique i N M (i - N * M)); lia. }
  assert (i mod N = i - N * M) as E2. { symmetry. apply (Nat.mod_unique i N M (i - N * M)); lia. }
  rewrite E1, E2. reflexivity.
Qed.

Lemma take_parts_length Ns off M out js : length (Take1stOrderParts Ns off M out js) = length js.
Proof.
  revert off js. induction Ns as [|n Ns IH]; intros off js; [reflexivity|].
  destruct js as [|j js]; [reflexivity|]. cbn. rewrite IH. reflexivity.
Qed.

Lemma take_parts_at Ns off M out js b n :
  nth_error Ns b = Some n ->
  nth_error (Take1stOrderParts Ns off M out js) b =
  match nth_error js b with
  | None => None
  | Some None => Some None
  | Some (Some d) => Some (Some (Take1stOrderPart (off + offset Ns b) n M out d))
  end.
Proof.
  revert off js b. induction Ns as [|m Ns IH]; intros off js b H; [destruct b; discriminate|].
  destruct js as [|j js]; [destruct b; reflexivity|]. destruct b as [|b].
  - injection H as ->. cbn. destruct j; [|reflexivity]. unfold offset. cbn. rewrite Nat.add_0_r. reflexivity.
  - cbn [nth_error Take1stOrderParts]. rewrite (IH (off + m) js b H).
    unfold offset. cbn [firstn fold_right]. rewrite Nat.add_assoc. reflexivity.
Qed.

(* the derivatives of the functor: one Jet with a component per parameter *)
Definition deriv (c : bool) (f : functor) (x : nat -> num) (r p : nat) : num :=
  jv (nth r (map (jeval c (fun i => jvar (x i) i)) (f_out f)) jet_default) p.

Lemma nth_map_in {A B} (g : A -> B) l r d d' : r < length l -> nth r (map g l) d' = g (nth r l d).
Proof.
  revert r. induction l as [|a l IH]; intros [|r] H; cbn in *; try lia; [reflexivity|]. apply IH. lia.
Qed.

Lemma offset_total sizes b n c :
  nth_error sizes b = Some n -> c < n -> offset sizes b + c < total sizes.
Proof.
  revert b. induction sizes as [|m sizes IH]; intros [|b] H Hc; try discriminate; unfold offset, total in *; cbn in *.
  - injection H as ->. lia.
  - specialize (IH b H Hc). lia.
Qed.

Lemma static_at c f Ns x js :
  functor_uses (total Ns) f ->
  match AutoDifferentiate c f Ns x js, run_doubles f x with
  | ReturnsFalse, None => True
  | ReturnsTrue r js', Some r' => r = r' /\ fills Ns (length (f_out f)) (deriv c f x) js js'
  | _, _ => False
  end.
Proof.
  intros U. unfold AutoDifferentiate.
  set (env := Make1stOrderPerturbations Ns 0 x (fun _ => jet_default)).
  assert (forall i, i < total Ns -> env i = jvar (x i) i) as He.
  { intros i Hi. unfold env. rewrite perturbations_at. destruct (Nat.leb_spec 0 i); destruct (Nat.ltb_spec i (0 + total Ns)); cbn; try lia. reflexivity. }
  destruct (run_jets_doubles c (total Ns) f env x U) as [E1 E2].
  { intros i Hi. rewrite (He i Hi). reflexivity. }
  rewrite E1. destruct (run_doubles f x) as [r|]; [|exact I]. split; [apply E2; reflexivity|].
  split; [apply take_parts_length|]. intros b n Hb. rewrite (take_parts_at Ns 0 _ _ js b n Hb).
  destruct (nth_error js b) as [[d|]|]; [|reflexivity|exact I].
  eexists. split; [reflexivity|]. rewrite map_length. split.
  - intros q k Hq Hk. rewrite take_at.
    destruct (Nat.ltb_spec (q * n + k) (length (f_out f) * n)) as [L|L]; [|nia].
    rewrite <- (Nat.div_unique (q * n + k) n q k Hk) by lia.
    rewrite <- (Nat.mod_unique (q * n + k) n q k Hk) by lia.
    unfold deriv. rewrite !(nth_map_in _ _ _ (Const R0)) by exact Hq.
    apply (jeval_agree c (total Ns)).
    + destruct U as [U _]. rewrite Forall_forall in U. apply U, nth_In, Hq.
    + intros i Hi. rewrite (He i Hi). split; reflexivity.
  - intros i Hi. rewrite take_at. destruct (Nat.ltb_spec i (length (f_out f) * n)); [lia|reflexivity].
Qed.
