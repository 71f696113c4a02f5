"""Record a property's status and note: python3 tools/note.py C32 proved "..." """
import json
import sys

notes = json.load(open("tools/notes.json"))
notes[sys.argv[1]] = [sys.argv[2], sys.argv[3]]
json.dump(dict(sorted(notes.items())), open("tools/notes.json", "w"), indent=1)
