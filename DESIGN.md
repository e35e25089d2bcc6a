# Machine-checked model of rust-signals (futures-signals 0.3.34)

The model and the proofs are in `rocq/theories` (Coq 8.16.1, standard library only).
The properties are in `properties.jsonl`; `MANIFEST.json` says which theorem settles which property.

## Modelling conventions

* **Polls.** `Poll<T>` is `poll T := Pending | Ready T`. A signal / signal vec / stream answers `poll (option A)`.
* **Sources are response scripts.** An input of a combinator (a user supplied signal, future, stream, ...) is a
  `src`: the list of responses it will still give (`todo`) and the list of responses it has given (`past`).
  Every poll pops one response. An exhausted script answers `Pending`. A finite execution consumes finitely many
  responses, so quantifying over all scripts quantifies over every behaviour of every possible source and over every
  schedule of outside events between (and during) polls. `past` is a log used only by specifications: it tells what the
  source has yielded, whether its last answer was `Pending` (then the task's waker is registered with it), whether it ended,
  and whether it was polled after it ended.
* **`Option<source>` fields** that the code sets to `None` when the source ends are a `src` plus a liveness flag. The dead
  `src` is kept only for the specification.
* **Loops** that poll until `Pending` are structural recursion on the script, so no fuel is involved. A source that is `Ready`
  forever makes the real loop diverge. That is outside the model.
* **Panics** (`unwrap` on `None`, index out of bounds, `usize` underflow) are the value `None` of an `option`. Theorems show
  that the result is `Some`.
* **`usize`** is `nat`. Underflow is an explicit panic. Overflow past 2^64 is not modelled (memory runs out first), except in
  the channel counter where wrap-around is the subject.
* **`&mut` state** becomes a returned state. Pinning, generics, lifetimes and trait dispatch have no counterpart.
* **Closures** are pure functions; where "called once per value" is claimed, the model logs the calls. Closures returning
  sources take the number of the call as an extra argument, so that two calls on equal values may give different sources.
* **std and futures crates** are modelled by their documented behaviour: `Vec`, `BTreeMap`, `VecDeque`,
  `futures_channel::mpsc::unbounded` (a FIFO queue with a closed flag), `RwLock`, `Mutex`, `Arc/Weak`, sequentially consistent atomics.
* **Threads.** `Mutable`, `channel`, `Broadcaster`, `cancelable_future`, `AtomicOption` and `swap` get small-step interleaving
  models in which each shared-memory access of the code is one step. All schedules are quantified over.
  Memory is sequentially consistent there; Weak.v has AtomicOption with release/acquire memory (C68).

## Trusted base

* Coq's kernel (8.16.1), checked again by `coqchk`.
* `Print Assumptions` is run under every property theorem (see the `Props*.v` files). The expected answer everywhere is
  `Closed under the global context`; exceptions are listed in the last section.
* The hand translation from Rust to Gallina. Every definition cites the lines it models.

## Properties: what is modelled, how it is proved

C01 MutableVec as (contents, subscribers with queues); invariant over op histories: replay(received ++ queued) = contents.
C02 each lock operation against an independent list specification (nth_error / firstn / rev), by induction on the contents.
C03 the op's emitted diffs computed by the model are empty in the listed cases; contents changed implies some diff.
C04 op = panic implies emitted diffs = []; panic iff the index condition.
C05 the notify loop refines "append a copy to every live queue"; non-interference corollary.
C06 apply_vec_diff refines apply_to_vec; two-vec system invariant.
C07 nth_error characterisation of every diff.
C08 generic loop lemma + list lemmas.
C09 C10 refuted for backward moves (witness); partial theorem for histories whose backward moves satisfy the exact side condition. On every source: no panic, the closure is called once per value, and the output is exactly what FilterSpec.v says (right except that the old place of a bad backward move is one too high); after a Replace or Clear the consumer has the right list again, if its own list did not overflow in between (FilterSince.v).
C11 invariant: the index vector is the sorted permutation; binary search proved; stable sort specification.
C12 invariant on lengths and pending queue.
C13 refuted (remove/update/move/pop of a non-empty inner vec); exact account of every single poll (FlattenStep.v), from which: right as long as the outer diffs leave the concatenation of the current contents alone, and repaired by Replace and Clear.
C14 C15 slots carrying the inner source; C15 refuted for backward moves; right as long as no element whose signal is true is moved back from directly behind one whose signal is false at that moment (FilterSignalStep.v).
C16 heap of index cells; invariant cell(i) = Some i.
C17 slots with futures; invariants on removing slots.
C18 C19 C20 C21 drain loops; C20's end claim refuted, value claim proved.
C22 refuted at the end of the outer signal; partial theorem.
C23 last-answer-was-Pending predicate on sources; refuted for chain and is_empty, proved for the others.
C24 no response after `Ready None` in any `past` log; refuted for key_cloned, proved for the others.
C25 C26 C27 C28 C29 C30 finite maps as strictly sorted association lists over any total order; same methods as for vecs.
C31 refuted when a Replace repeats the watched key; partial theorem for all other sources.
C32 - C44 one small state machine per combinator, generic loop lemmas.
C45 - C47 small-step interleaving model of Mutable; C45 proved for all interleavings; C46 and C47's last-value part refuted with
  a schedule, proved when a poll is not interleaved with writers (single-threaded use).
C48 same model, with a log of which call set which flag; the set_neq clause refuted (1, 2, 1), what holds of it proved.
C49 same model; refuted with two schedules; partial: when all swaps take their locks in a common order, every schedule is
  finite and ends with all calls over (progress from the lock invariants, termination from a measure).
C50 small-step model of the channel (any number of Senders and calls, Arc counts, wrapping counter); proved for all interleavings.
C51 refuted with two schedules (lost wake-up, lost last value); proved when no notify/store falls into the poll (ghost flags).
C52 refuted with two schedules (clone or drop overlapping close); proved for all interleavings without that overlap.
C53 interleaving model of BroadcasterState / BroadcasterSharedState / BroadcasterNotifier (every lock, flag and waker access is one step; any number of children
  made, polled and dropped by any threads; the input wakes at any moment, also while polled); every answer of a child is related to the input's answers so far. Proved in every interleaving;
  "a poll by any child makes the others see the change" is about polls that do not overlap (C53_asks, C53_shared; with overlap see C32_broadcaster_overlap_refuted).
C54 same model. Refuted twice: (1) the input wakes while it is polled: `notify` finds the child's waker gone (taken by the earlier wake-up) and the child registers only after polling,
  (2) two children polled at the same time: one has reset the flag, the other one finds nothing and sleeps, and is not woken when the first one finds a value.
  Proved: a wake-up that starts after the child returned Pending is never lost (C54_later, every interleaving); no loss when one thing happens at a time.
C55 small-step model of the polling task and the discarding thread; the trace of events is determined up to the inner future's answers;
  wake-up refuted (discard during the first inner poll), proved outside that race, and in it for a task that waited before.
C56 small-step model with a ghost ownership log.
C60 C61 as C59 and C23, for maps; C61 refuted for key_cloned, which polls on after its source's end.
C57 whole-program model (Executor.v): any number of Mutables, Broadcasters and for_each tasks, pipelines as trees of Mutable signals, always, map, dedupe(_map), eq/neq,
  map_ref!, switch/flatten (its closure makes any pipeline, at any time) and Broadcaster children, all sharing one heap of ChangedWakers and notifiers; a step is one call (set, drop, swap, spawn, cancel, a spurious wake-up, ...) or one poll.
  Invariant: per signal, what it last showed against what is in its sources, and who will be woken; then the last value is the function of the contents, each value on the way there is
  (no glitches), every poll ends (measure), the executor becomes idle (measure), nothing panics, and a for_each completes exactly when its Mutables are dropped (of a switch: those of its input and of the
  last inner signal). Not covered: closures of combinators that call set themselves (closures of for_each may); threads (C46, C51, C54 show what goes wrong there).
C58 whole-program model (VecExec.v): any number of MutableVecs and for_each tasks over trees of map, filter, filter_map, sort_by_cloned, enumerate, debug and chain. Each combinator is
  its sequential model; the script it reads is extended by polling its input whenever it asks for an answer that is not there. Invariant: the answers of each node are a run of the
  sequential model on the answers of its inputs, down to the queues of the MutableVecs; then C07-C12, C16, C17, C23, C24 compose. A task that sleeps and was not woken shows the right
  function of the contents, completes exactly when its MutableVecs are dropped, and does not panic: partial, under the side conditions of C09, C10 (backward moves) and C23 (chain), which are
  shown to be needed. They hold, and nothing is partial, if the program never moves an element backwards in a MutableVec beneath a filter, never replaces nothing by nothing in a
  MutableVec beneath a chain, and has no filter beneath a chain (VecExecTame.v, from the exact diffs of C62 and what each combinator makes of forward moves and of non-empty contents, VecCalm.v).
  Every poll ends and the executor becomes idle, without side conditions (VecExecLive.v): what is left in the queues and buffers of a pipeline, compared lexicographically
  from the sources outwards, gets smaller with every diff, and a combinator that was told Pending asks no more.
C63 model of C45; the step is exhibited (`at_once`), the value it reads and writes compared with the answer; frame lemma over all steps; lock invariants.
C64 models of C45 and C53; invariant: the call in progress has not passed the dropped signal yet, or nothing lists it any more.
C65 model of C57; `quiet`: a signal (with the Broadcasters below it) that has nothing to tell. A poll of a quiet signal finds nothing, no poll and no move except a write to one of its Mutables ends the
  quietness of any signal, and after every poll the polled signal is quiet; so calls are counted by writes.
C66 model of C57; `depends`: the Mutables of the input of a switch, and of the inner signal made from its current value. Invariant (`tidy`): every live ChangedWaker
  belongs to a part of its owner's signal that has not ended; a wake-up that reaches a task is followed back to the Mutable it came from.
C67 one model for both (Shared.v): an RwLock, the contents, the senders and the channels; steps are taking and releasing a guard, beginning a call, one `unbounded_send`, one poll, subscribing (the write lock is held for the whole call), cloning and dropping. Inside a call the contents are changed at its first step: nobody else can read them before the guard is released. Invariant (`sh_inv`): what a live subscriber received, together with what the call in progress has not sent to it yet, is the first message and all diffs since it subscribed; `calls_fine`: the calls so far follow each other by `op_means`/`op_sends` (C02, C62), `mop_means`/`mop_sends` (C26), which do not mention the model. Taking a lock that is not free is not a step, so that a thread that locks twice waits forever. A panic poisons the lock.
C68 Weak.v: AtomicOption again, with release/acquire memory: messages of the pointer in modification order, a view (known initializations, oldest message that may still be read) for each thread and each message; the orderings of the code are parameters of the step function. Invariant: whoever owns a box knows its initialization; some handle, or the reference count of the Arc, knows the last message. The orderings inside Arc and Weak (decrement: release, last one: acquire) are taken from std.
C69 models of C08-C12, C16, C17, and of the maps in C27-C30; what was received against what was sent and is held back, as a permutation; for the counts the lengths of the contents are a potential.
C70 Views.v: Shared.v, and tasks (for_each) that poll chains of combinators on top of a subscriber, in single steps: one poll of the channel, or one answer of one combinator (the poll function of its own model, given the answers of its input so far); so that calls, sends, drops and polls mix in every way. What a view is meant to show is defined from the program text and the contents (ViewsSpec.v). Proof: the run of the whole chain is a run of each combinator on a scripted source (ViewsRun.v), whose specification is that of C02-C16 (ViewsMach.v); each combinator asks its input until it is told to wait (ViewsPrompt.v), so that a sleeping task has received everything (C67). That a poll comes to an end: the messages in the channel decrease, and between two of them each combinator gives finitely many answers (ViewsProg.v).
C71 Compose.v: no new model of code, but a relation `gives kind answers R` that says how the answers of a signal came about: a subscriber in a reachable state of Shared.v or Mutable.v, a child in a reachable state of Broadcaster.v whose input is itself such a signal, or the run of the model of a combinator on the answers that its inputs gave (which is all a combinator learns about them, whatever other threads did in between); and which value it is meant to show in the present state of those sources. Every rule excludes, by a premise, the cases that the combinator or source gets wrong and refers to the theorem which shows that it does. `g_other` is for any other source which keeps its promises. Proof: induction on that relation; each case is the safety and the wake-up theorem of the one combinator (C02-C26, C45-C47, C53, C54, C67); for Broadcaster, an invariant says that its input was asked until it had nothing more to say. Not covered: combinators that do not show a function of the present contents (throttle, delay_remove, stop_if, wait_for, Signal filter_map, enumerate).
C72 Alert.v: like C71, a relation over the models of the combinators, `waits kind before after W`: the answers before and after a poll of whoever uses it, and the statement W that every source in use was polled in between and answered Pending last, unless it has ended. Sources of elements are followed by position (with `carried`, the same insertions, removals and moves as the elements), inner signals of switch and futures by the order in which they were made. Proof: induction; each case is the wake-up theorem of the one combinator (C23, C43, C61).
C73 Rest.v: the relation of C71, in which a source has to be silent only if it was asked in the last poll of the task (`asked`, C72), i.e. only if the waker that it holds is that of this poll. That whoever was asked holds the waker of the poll is the meaning of a Pending answer and not part of the relation; it is proved for each source by itself (C46, C54, C67). The rule for Broadcaster: its input holds the waker of the Broadcaster, and a call of that one wakes the children (C53, C54). Rules for chain, map_signal, filter_signal_cloned, flatten, map_value_signal ask that the diffs of the inputs can be applied, which C71_shows provides for the shared sources. Proof: by the wake-up theorems of the combinators, Pending of the whole means that each input was asked; so the premises of C71 hold. for_each: the closure was called with exactly the values received (C44).

C62 `op_sends` gives the diffs of each operation as a function of operation and contents; proved per operation of MutVec.v.
C74 Poison.v: a second model of mutable.rs, with panics: of what a writer does, the user's part under the lock is one step, each `wake` is one step, the rest of a poll is as in Mutable.v; a write guard dropped while unwinding poisons the lock, `unwrap` on a poisoned lock panics, a panic while unwinding aborts. Proof: invariants over the log of writes, reads, panics and the poisoning. Refuted: a panic of the closure of signal_ref loses the change for that signal; after a panic of a writer, waiting signals are never woken again, not even when the last handle goes; a waker that panics keeps the others from being woken; replace_with whose closure panics in the owner of the last handle aborts the program. After a write by which nobody panicked, and unless it came in the middle of a poll, whoever waits has been woken (`po_woken`); a lock is poisoned by panics of writers only, and then calls panic and do not hang.
C75 Caught.v: MutVec.v plus operations whose panic is caught while the guard is there (its model of a panicking operation keeps the state that is left), retain with a closure that may panic, and notifications that stop at one sender. Proof: the invariant of C01; per operation, the exact state that a panic leaves; for the way back (C75_back) a second run in which every subscriber begins at the Replace. Refuted: move_from_to and swap with a bad second index have removed the element by then; what retain has removed is not notified when its closure panics; a clone or a waker that panics leaves the rest of the subscribers without the diff.
C76 BroadPanic.v: a second model of broadcaster.rs, with panics of closures, input and wakers; a poll is two steps (swap of is_changed, everything under the lock), notify is one. A panic under the write lock poisons `inner`, a panic in notify poisons `wakers`. Proof: invariant that relates epochs to the number of values the input has yielded; exact conditions for the poisoning of either lock. Refuted: a panic of the closure of the child which polled the input kills all children, as does one of the input; a value on which the closure panicked is lost for that child; a waker that panics keeps the other children from being woken for ever, and makes each later change of the input panic.
C77 MapCaught.v: MutMap.v plus operations that change the contents and stop at one sender, in clone (before the diff is sent) or in the waker (after). Proof: an invariant that, for each subscriber which has not missed a diff since the last one that says everything (Replace, Clear), the diffs from there on give the contents. Refuted for the others: insert_cloned with a clone that panics; remove, whose clone of the key comes after the change, also with one subscriber (signal_vec_keys then panics when the key comes back); a waker that panics leaves the other tasks asleep.
C78 Locks.v: of each call only the sequence of locks that it takes and releases, with what is called under them (closures, wakers, the input of a Broadcaster); `lib` says which sequences there are, provided that user code under a lock keeps to an order of the Mutables, that executors do not poll inside `wake`, and that Broadcasters are not their own input. Proof: every call takes locks in one order (`inner` of Broadcasters from the last to the first, the RwLocks of the sources, `wakers` from the first to the last, wakers of single signals); the holder of the last lock that is held can go on. Readers may or may not have to wait for waiting writers: what any policy reaches can be finished under the strictest. Refuted without the provisos, among them: an executor that polls in `wake` (the wakers are called under the lock), a signal that is polled by a new task while the waker of the old one owns the last handle of the Mutable.
C79 CancelPanic.v: future.rs once more, as an interleaving model in which everything that belongs to the user (poll and Drop of the inner future, callback, clone, Drop and wake of wakers) returns or panics, the future can be polled again after a panic, and a guard dropped by a panic poisons the mutex. Assumed from the language: an assignment evaluates its right side first, and writes the new value also when the Drop of the old one panics. Proof: invariants over all executions. Refuted: the Drop of a waker that panics in the slot poisons the mutex, so that discard panics and cancels nothing; a callback that has panicked is not called again.

## What is modelled and what is not

| file | modelled in | not modelled |
|---|---|---|
| src/atomic.rs | AtomicOption.v, Weak.v (release/acquire memory) | |
| src/internal.rs | SigSlots.v (`PollResult`, `Map2`, `MapRef1` .. via n-ary models) | |
| src/signal/signal.rs | Sig.v, SigSlots.v, SwitchVec.v | trait impls for `&mut`, `Box`, `Pin` (they only forward), `Debug` output |
| src/signal/macros.rs | SigSlots.v (`map_ref!`, `map_mut!` for any number of inputs) | macro expansion itself |
| src/signal/mutable.rs | Mutable.v (every interleaving), Poison.v (panics and poisoning), Executor.v (one call at a time, in whole programs) | serde impls, `Debug`; `lock_mut` guards that are leaked; panics in destructors and in `Waker::clone` |
| src/signal/broadcaster.rs | Broadcaster.v (every interleaving), Executor.v (one call at a time, in whole programs), BroadPanic.v (panics and poisoning) | `Debug`; leaked children |
| src/signal/channel.rs | Channel.v | `Debug` |
| src/future.rs | CancelFuture.v, CancelPanic.v (panics of the inner future, the callback and wakers) | `Debug` |
| src/signal_vec.rs | VecDiff.v, VecSimple.v, VecToSignal.v, Sort.v, Chain.v, Flatten.v, ElemSignal.v, DelayRemove.v, MutVec.v, VecExec.v (whole programs), Caught.v (caught panics), Shared.v (many threads), Views.v (views on many threads) | serde impls, `Debug`, the forwarding impls; re-entrant closures; panics of closures of combinators; panics of wakers in retain, drain, truncate, swap, reverse, extend |
| src/lib.rs | nothing: module declarations and re-exports only | |
| src/signal_map.rs | MapDiff.v, MutMap.v, MapComb.v, MapCaught.v (panics that are caught), Shared.v (many threads), Views.v (views on many threads) | serde impls, `Debug`, the forwarding impls |

Compose.v, Alert.v and Rest.v model no code of their own: they put the models above together (C71-C73). Locks.v models all uses of locks in mutable.rs, broadcaster.rs, future.rs, signal_vec.rs and signal_map.rs once more, and nothing else of them (C78); the internals of std locks and of the mpsc channels are not modelled.

Everywhere: memory allocation, unwinding (a panic ends the execution, except in Poison.v, Caught.v, BroadPanic.v, MapCaught.v, CancelPanic.v and for the locks of Shared.v), memory weaker than sequential consistency, except for AtomicOption (Weak.v): mutable.rs, broadcaster.rs and future.rs use SeqCst and locks only, so that nothing is lost there; channel.rs also uses Acquire and Release for its count of senders.
