#!/usr/bin/env python3
"""Regenerates the per-property table of DESIGN.md (between the markers) from properties.jsonl, MANIFEST.json and METHOD below."""
import json,re
LIN="machine of Machine.v (any number of threads, all schedules); invariant Inv + ghost log; linearization built in IncMach7"
HIST="history predicate in Props.v, derived from C01/C02 (Derive, PropsProofs*)"
METHOD={
"C01":LIN,"C02":LIN+" (BlkInv, BlkSteps*, BlkRules)",
"C16":"Drop of the map modelled in DropModel; Drop.v + Marks*.v (no half-copied entry between calls)",
"C17":"stand-alone transition system of Parker (ParkerModel), invariant by induction on schedules",
"C18":"explicit schedule, evaluated by the kernel; deadlock is a configuration, checked for every thread",
"C19":"panic clause of the machine invariant; two explicit schedules",
"C20":"arithmetic (PropArith) and machine level: solo partial-correctness logic (Reserve), size invariant by a pure program logic (Capacity)","C43":"history predicate in Props.v (PropsProofs*)","C45":"wrappers modelled in Api.v; documented behaviour as a relation doc; corollary of the linearization","C46":"program logic with one ghost value per thread over all programs (Counters); copied: counting invariant of Dead1","C47":"clause l_panic of the linearization (panicked ids own no atom); erasure of the panicked calls from the history (Panics)","C44":"corollary of the machine invariant (Main1, Main4)",
"C21":"arithmetic on N, all table sizes","C22":"arithmetic on N","C23":"arithmetic on N; faithful encoding of the model's entry words by machine words (Words)","C48":"layout of Entry<K,V>, addresses a Box may have; insert and get on machine words (Words)","C49":"arithmetic of alloc.rs with wrapping usize (Layout)","C52":"the invariant of C42 without its parts on single entries, for runs without aborted tables (BDead1-BDead6, BDeadMain)","C54":"release/acquire view machine of one key across probing and nested incremental resizes; invariant relating each thread's view to the log of writes (WeakMap, WeakMapProof, WeakMapMain)","C55":"total-correctness logic for programs under arbitrary interference, infinite schedules (NoWait)","C56":"total-correctness logic for one thread running alone with an escape (SoloX), blocking operations (SoloB, SoloB2), reachable idle states (SoloBMain)","C57":"total-correctness logic for one thread running alone with an escape and with the reachable-state invariant of incremental resizing assumed at every step (SoloG); the copied and claim counters of an idle state account for each other (Dead6), so helping a resize to its end always promotes it (SoloC, SoloC2, SoloCMain)","C58":"program logic with one piece of auxiliary state per thread: the table whose resize the call has begun (Owe); every table but those before the root is owed by a running call (OweMain)","C59":"release/acquire view machine of help_copy_blocking, copy_at_blocking and try_promote with concurrent writers and aborted tables; a structural invariant (who holds which slot, what is counted, which tables are aborted) and one on views: whoever knows root n knows the frozen last word of every slot of the table before and its copy (WeakBlk)","C60":"view-based machine of the sharded counter; invariant: what a thread or a finished call of len has read is at least what the events that happen before it have read or written (WeakLen)","C61":"view-based machine of the stack, nodes with version numbers; invariant: the messages of the head form the chain of pushed nodes, a thread knows the last version of every node whose push it knows (WeakStack)","C53":"the parker over view-based memory with SeqCst accesses; refinement of ParkerModel except for the stale fast path (WeakParker)","C50":"release/acquire view machine with the orderings of the code, most general client; invariant on messages (Weak)","C51":"same machine; invariant: the views of copy counter, status and root include every copy (Weak)",
"C24":"lockstep simulation of the infinite run (Livelock)",
"C25":"decreasing measure on programs, all schedules (WaitFree)",
"C26":"client program over the API (Client), run on the machine","C27":"client program","C28":"client program, several maps (Guards)","C29":"client program",
"C30":"set operations = map operations with unit values (Client)","C32":"stand-alone transition system (StackModel)",
"C33":"machine with several maps (Guards)","C34":"lockstep simulation of the infinite run","C40":"lockstep simulation of the infinite run (Livelock, LivelockEx)",
"C37":"ownership logic for the allocation lock (Locks)","C39":"Main3 + explicit schedule",
"C41":"total-correctness logic for one thread running alone (Solo*)",
"C42":"ghost state per thread (slots it copies, what it waits for, whom it must wake), global invariant, program logic (Dead*)",
"C10":"counter invariant (LenCount, LenRun)","C15":"safety and reclamation clauses of the machine invariant",
"C11":HIST,"C12":HIST,"C13":HIST,"C14":HIST,
}
m={c['property']:c for c in json.load(open('/verif/MANIFEST.json'))['claims']}
rows=["| id | property | status | theorems | model and method |","|----|----|----|----|----|"]
for l in open('/verif/properties.jsonl'):
    p=json.loads(l); c=m[p['id']]
    st=c['status']+(" (refuted, see section 5)" if 'REFUTED' in c.get('note','') else '')
    rows.append("| %s | %s | %s | %s | %s |"%(p['id'],p['title'],st,', '.join('`%s`'%t for t in c['theorems']),METHOD.get(p['id'],HIST)))
s=open('/verif/DESIGN.md').read()
s=re.sub(r'(<!-- table -->\n).*?(\n<!-- /table -->)',lambda k:k.group(1)+'\n'.join(rows)+k.group(2),s,flags=re.S)
open('/verif/DESIGN.md','w').write(s)
