(** One edge against the half-strip to the right of a vertical segment. *)
From Coq Require Import List Reals Lra Lia Bool.
From Verif Require Import GeoModel GeoSpec GeoSeg GeoPip.
Open Scope R_scope.

(** the crossing of the right ray, in terms of the ordinates and the determinant *)
Definition ray (uy vy d : R) : bool := xorb (ltb 0 uy) (ltb 0 vy) && (if ltb 0 uy then ltb d 0 else ltb 0 d).

Lemma ray_swap uy vy d : ray uy vy d = ray vy uy (- d).
Proof.
  unfold ray. rewrite (xorb_comm (ltb 0 uy)). destruct (ltb 0 vy) eqn:V, (ltb 0 uy) eqn:U; cbn [xorb andb]; try reflexivity; apply ltb_iff; split; intros; lra.
Qed.
Lemma ray_right ux uy vx vy : 0 < ux -> 0 < vx -> ray uy vy (ux * vy - uy * vx) = xorb (ltb 0 uy) (ltb 0 vy).
Proof.
  intros U V. unfold ray. destruct (ltb_spec 0 uy) as [[-> A]|[-> A]], (ltb_spec 0 vy) as [[-> B]|[-> B]]; cbn [xorb andb]; try reflexivity.
  - apply ltb_true. nra.
  - apply ltb_true. nra.
Qed.
Lemma ray_left ux uy vx vy : ux <= 0 -> vx <= 0 -> ray uy vy (ux * vy - uy * vx) = false.
Proof.
  intros U V. unfold ray. destruct (ltb_spec 0 uy) as [[-> A]|[-> A]], (ltb_spec 0 vy) as [[-> B]|[-> B]]; cbn [xorb andb]; try reflexivity.
  - apply ltb_false. nra.
  - apply ltb_false. nra.
Qed.
Lemma ray_mixed ux uy vx vy : 0 < ux -> vx <= 0 -> ux * vy - uy * vx <> 0 -> ray uy vy (ux * vy - uy * vx) = xorb (ltb 0 uy) (ltb 0 (ux * vy - uy * vx)).
Proof.
  intros U V D. unfold ray. destruct (ltb_spec 0 uy) as [[-> A]|[-> A]], (ltb_spec 0 vy) as [[-> B]|[-> B]]; cbn [xorb andb].
  - destruct (ltb_spec 0 (ux * vy - uy * vx)) as [[-> _]|[_ K]]; [reflexivity|nra].
  - destruct (ltb_spec 0 (ux * vy - uy * vx)) as [[-> L]|[-> L]]; cbn [negb]; [apply ltb_false; lra|apply ltb_true; lra].
  - destruct (ltb 0 (ux * vy - uy * vx)); reflexivity.
  - destruct (ltb_spec 0 (ux * vy - uy * vx)) as [[_ K]|[-> _]]; [nra|reflexivity].
Qed.

Lemma ltb_shift h y : ltb 0 (y - h) = ltb h y.
Proof. apply ltb_iff. split; intros; lra. Qed.

Definition strip_in (h x y : R) := ltb 0 y && leb y h && ltb 0 x.
Definition strip_x (ux vx da db : R) := (ltb 0 ux && ltb vx 0 && leb 0 da && leb db 0) || (ltb ux 0 && ltb 0 vx && leb da 0 && leb 0 db).

Lemma strip_in_right h x y : 0 < h -> 0 < x -> strip_in h x y = xorb (ltb 0 y) (ltb h y).
Proof. intros H X. unfold strip_in. bools. destruct (ltb_spec 0 y) as [[-> A]|[-> A]], (ltb_spec h y) as [[-> B]|[-> B]]; try lra; cbn [xorb andb]; bools; reflexivity. Qed.
Lemma strip_in_left h x y : x <= 0 -> strip_in h x y = false.
Proof. intros X. unfold strip_in. bools. apply andb_false_r. Qed.

Lemma strip_mixed h ux uy vx vy : 0 < h -> 0 < ux -> vx <= 0 ->
  let da := ux * vy - uy * vx in let db := ux * (vy - h) - (uy - h) * vx in
  da <> 0 -> db <> 0 -> ~ (vx = 0 /\ 0 <= vy <= h) ->
  xorb (xorb (ray uy vy da) (ray (uy - h) (vy - h) db)) (strip_x ux vx da db) = xorb (strip_in h ux uy) (strip_in h vx vy).
Proof.
  intros H U V da db Da Db Nv. unfold da, db. rewrite !ray_mixed by assumption. fold da db. rewrite (strip_in_right h ux) by assumption. rewrite (strip_in_left h vx) by assumption.
  rewrite ltb_shift.
  assert (M : da = db + h * (ux - vx)) by (unfold da, db; ring). assert (P : 0 < h * (ux - vx)) by (apply Rmult_lt_0_compat; lra).
  assert (Z : vx = 0 -> da = ux * vy /\ db = ux * (vy - h)) by (intros ->; unfold da, db; split; ring). clearbody da db.
  assert (X : strip_x ux vx da db = xorb (ltb 0 da) (ltb 0 db)).
  { unfold strip_x. destruct (ltb_spec 0 ux) as [[-> _]|[_ K]]; [|lra]. destruct (ltb_spec ux 0) as [[_ K]|[-> _]]; [lra|]. cbn [andb orb]. rewrite orb_false_r.
    destruct (ltb_spec 0 da) as [[-> A]|[-> A]], (ltb_spec 0 db) as [[-> B]|[-> B]]; cbn [xorb]; try lra.
    - destruct (leb_spec' db 0) as [[_ K]|[-> _]]; [lra|]. apply andb_false_r.
    - destruct (leb_spec' db 0) as [[-> _]|[_ K]]; [|lra]. destruct (leb_spec' 0 da) as [[-> _]|[_ K]]; [|lra]. rewrite !andb_true_r. apply ltb_true.
      destruct (Req_EM_T vx 0) as [E|]; [|lra]. exfalso. apply Nv. destruct (Z E) as [Z1 Z2]. split; [exact E|]. split; nra.
    - destruct (leb_spec' 0 da) as [[_ K]|[-> _]]; [lra|]. rewrite andb_false_r. reflexivity. }
  rewrite X. destruct (ltb 0 uy), (ltb 0 da), (ltb h uy), (ltb 0 db); reflexivity.
Qed.

Lemma strip_x_swap ux vx da db : strip_x ux vx da db = strip_x vx ux (- da) (- db).
Proof.
  unfold strip_x.
  assert (A : forall x, leb 0 (- x) = leb x 0) by (intros x; destruct (leb_spec' x 0) as [[-> ?]|[-> ?]]; [apply leb_true|apply leb_false]; lra).
  assert (B : forall x, leb (- x) 0 = leb 0 x) by (intros x; destruct (leb_spec' 0 x) as [[-> ?]|[-> ?]]; [apply leb_true|apply leb_false]; lra).
  rewrite !A, !B. destruct (ltb 0 ux), (ltb ux 0), (ltb 0 vx), (ltb vx 0), (leb da 0), (leb 0 da), (leb db 0), (leb 0 db); reflexivity.
Qed.
Lemma strip_x_same ux vx da db : (0 < ux /\ 0 < vx) \/ (ux <= 0 /\ vx <= 0) -> strip_x ux vx da db = false.
Proof.
  intros H. unfold strip_x. destruct (ltb_spec 0 ux) as [[-> A]|[-> A]], (ltb_spec ux 0) as [[-> B]|[-> B]], (ltb_spec 0 vx) as [[-> C]|[-> C]], (ltb_spec vx 0) as [[-> D]|[-> D]]; try lra; reflexivity.
Qed.

(** the edge [u v] against the points (0, 0) and (0, h) *)
Lemma strip h ux uy vx vy : 0 < h ->
  let da := ux * vy - uy * vx in let db := ux * (vy - h) - (uy - h) * vx in
  ((0 < ux /\ vx <= 0 \/ ux <= 0 /\ 0 < vx) -> da <> 0 /\ db <> 0) -> ~ (ux = 0 /\ 0 <= uy <= h) -> ~ (vx = 0 /\ 0 <= vy <= h) ->
  xorb (xorb (ray uy vy da) (ray (uy - h) (vy - h) db)) (strip_x ux vx da db) = xorb (strip_in h ux uy) (strip_in h vx vy).
Proof.
  intros H da db D Nu Nv. destruct (Rlt_dec 0 ux) as [U|U], (Rlt_dec 0 vx) as [V|V].
  - rewrite strip_x_same by lra. unfold da, db. rewrite !ray_right by assumption. rewrite !strip_in_right by assumption. rewrite !ltb_shift. destruct (ltb 0 uy), (ltb 0 vy), (ltb h uy), (ltb h vy); reflexivity.
  - destruct D; [lra|]. apply strip_mixed; auto; lra.
  - destruct D; [lra|]. rewrite (xorb_comm (strip_in h ux uy)). rewrite <- (strip_mixed h vx vy ux uy); auto; try lra.
    + rewrite (ray_swap uy), (ray_swap (uy - h)), (strip_x_swap ux). unfold da, db.
      replace (- (ux * vy - uy * vx)) with (vx * uy - vy * ux) by ring. replace (- (ux * (vy - h) - (uy - h) * vx)) with (vx * (uy - h) - (vy - h) * ux) by ring. reflexivity.
    + unfold da in *. lra.
    + unfold db in *. lra.
  - rewrite strip_x_same by lra. unfold da, db. rewrite !ray_left by lra. rewrite !strip_in_left by lra. reflexivity.
Qed.
