#!/bin/bash
/verif/tools/build.sh >/tmp/build.log 2>&1; grep -A20 "^File.*Error\|Error:" /tmp/build.log | head -30
cd /verif && python3 tools/props.py > properties.jsonl && python3 tools/manifest.py | awk '{print $2}' | sort | uniq -c && python3 tools/design.py && git add -A && git commit -qm "$1" && vcheck | tail -25
